(** C67: the modified differential multiplier method. *)
From Verif Require Import Base Csr_Model Kernel_Model Kernel_Proofs Mdmm_Model Mdmm_Spec.

(** ** [prepare_update] and the optimizer step *)
Section Trees.
  Variable K : CRing.
  Add Ring Kring67 : (cth K).
  Local Open Scope ring_K.

  Fixpoint tree_ind2 (P : tree K -> Prop) (HL : forall v, P (Leaf v)) (HM : forall v, P (LM v))
    (HN : forall ch, (forall c, In c ch -> P c) -> P (Node ch)) (t : tree K) : P t :=
    match t with
    | Leaf v => HL v
    | LM v => HM v
    | Node ch => HN ch ((fix go (l : list (tree K)) : forall c, In c l -> P c :=
        match l with
        | [] => fun c (H : In c []) => match H with end
        | a :: l => fun c H => match H with or_introl e => eq_ind a P (tree_ind2 P HL HM HN a) c e | or_intror H => go l c H end
        end) ch)
    end.

  (** The subtree at a path of child positions. *)
  Fixpoint at_path (t : tree K) (path : list nat) : option (tree K) :=
    match path with
    | [] => Some t
    | i :: path => match t with Node ch => match nth_error ch i with Some c => at_path c path | None => None end | _ => None end
    end.

  Lemma prepare_path (t : tree K) path :
    at_path (prepare_update t) path = option_map prepare_update (at_path t path).
  Proof.
    revert t. induction path as [|i path IH]; intros t; [reflexivity|]. destruct t; try reflexivity.
    cbn [prepare_update at_path]. rewrite nth_error_map. destruct (nth_error ch i); [apply IH|reflexivity].
  Qed.
  Lemma sgd_path lr (t : tree K) path : at_path (sgd lr t) path = option_map (sgd lr) (at_path t path).
  Proof.
    revert t. induction path as [|i path IH]; intros t; [reflexivity|]. destruct t; try reflexivity.
    cbn [sgd at_path]. rewrite nth_error_map. destruct (nth_error ch i); [apply IH|reflexivity].
  Qed.
  Lemma prepare_involutive (t : tree K) : prepare_update (prepare_update t) = t.
  Proof.
    induction t as [v|v|ch IH] using tree_ind2; cbn [prepare_update]; f_equal.
    - rewrite map_map. rewrite <- (map_id v) at 2. apply map_ext. intros a. ring.
    - rewrite map_map. rewrite <- (map_id ch) at 2. apply map_ext_in. exact IH.
  Qed.

  Fixpoint apply_list (ps us : list (tree K)) : list (tree K) :=
    match ps, us with q :: ps, w :: us => apply_updates q w :: apply_list ps us | _, _ => [] end.
  Lemma apply_node ps us : apply_updates (Node ps) (Node us) = Node (apply_list ps us).
  Proof. reflexivity. Qed.
  Lemma nth_apply ps us i :
    nth_error (apply_list ps us) i =
    match nth_error ps i, nth_error us i with Some p, Some u => Some (apply_updates p u) | _, _ => None end.
  Proof.
    revert us i. induction ps as [|p ps IH]; intros us i; [destruct i; reflexivity|].
    destruct us as [|u us]; [destruct i; cbn; [reflexivity|destruct (nth_error ps i); reflexivity]|].
    destruct i; [reflexivity|]. cbn [apply_list nth_error]. apply IH.
  Qed.
  Lemma apply_path p u path a b : at_path p path = Some a -> at_path u path = Some b ->
    at_path (apply_updates p u) path = Some (apply_updates a b).
  Proof.
    revert p u. induction path as [|i path IH]; intros p u Hp Hu; cbn [at_path] in Hp, Hu.
    - injection Hp as <-. injection Hu as <-. reflexivity.
    - destruct p as [|?|ps]; try discriminate Hp. destruct u as [|?|us]; try discriminate Hu.
      rewrite apply_node. cbn [at_path]. rewrite nth_apply.
      destruct (nth_error ps i); [|discriminate Hp]. destruct (nth_error us i); [|discriminate Hu].
      apply IH; assumption.
  Qed.
  Lemma get_vplus (a b : list K) i : length a = length b -> get (vplus a b) i = get a i + get b i.
  Proof.
    intros Hl. unfold vplus. destruct (Nat.lt_ge_cases i (length a)) as [H|H].
    - unfold get. erewrite nth_map_in with (d := (0, 0)) by (rewrite combine_length, <- Hl, Nat.min_id; exact H).
      rewrite combine_nth by exact Hl. reflexivity.
    - unfold get. rewrite !nth_overflow; [ring|lia|lia|]. rewrite map_length, combine_length. lia.
  Qed.
  Lemma get_map0 (f : K -> K) (v : list K) i : f 0 = 0 -> get (map f v) i = f (get v i).
  Proof. intros Hf. unfold get. rewrite <- Hf at 1. apply map_nth. Qed.

  Lemma step_paths (lr : K) (p g : tree K) path (a b : list K) : length a = length b ->
    (at_path p path = Some (Leaf a) -> at_path g path = Some (Leaf b) ->
       exists c, at_path (mdmm_step lr p g) path = Some (Leaf c) /\ length c = length a /\
         forall i, get c i = get a i - lr * get b i) /\
    (at_path p path = Some (LM a) -> at_path g path = Some (LM b) ->
       exists c, at_path (mdmm_step lr p g) path = Some (LM c) /\ length c = length a /\
         forall i, get c i = get a i + lr * get b i).
  Proof.
    intros Hl. unfold mdmm_step. split; intros Hp Hg.
    - assert (Hu : at_path (prepare_update (sgd lr g)) path = Some (Leaf (map (fun a => - (lr * a)) b)))
        by (rewrite prepare_path, sgd_path, Hg; reflexivity).
      eexists; split; [rewrite (apply_path _ _ _ _ _ Hp Hu); reflexivity|].
      split; [unfold vplus; rewrite map_length, combine_length, map_length; lia|].
      intros i. rewrite get_vplus by (rewrite map_length; exact Hl). rewrite get_map0 by ring. ring.
    - assert (Hu : at_path (prepare_update (sgd lr g)) path = Some (LM (map copp (map (fun a => - (lr * a)) b))))
        by (rewrite prepare_path, sgd_path, Hg; reflexivity).
      eexists; split; [rewrite (apply_path _ _ _ _ _ Hp Hu); reflexivity|].
      split; [unfold vplus; rewrite map_length, combine_length, !map_length; lia|].
      intros i. rewrite get_vplus by (rewrite !map_length; exact Hl). rewrite !get_map0 by ring. ring.
  Qed.

  Lemma sub_self (a : K) : a - a = 0. Proof. ring. Qed.
  Lemma sub_zero (a : K) : a - 0 = a. Proof. ring. Qed.
  Lemma sub_eq (a b : K) : a - b = 0 -> a = b.
  Proof. intros H. transitivity (a - b + b); [ring|]. rewrite H. ring. Qed.
  Lemma zero_sq : (0 : K) * 0 = 0. Proof. ring. Qed.
  Lemma fold_sum (A : Type) (outs : list (K * A)) a : fold_left (fun a o => a + fst o) outs a = a + sumf fst outs.
  Proof.
    revert a. induction outs as [|o outs IH]; intros a; cbn [fold_left sumf]; [ring|]. rewrite IH. ring.
  Qed.
  Lemma add_zero (a : K) : 0 + a = a. Proof. ring. Qed.
End Trees.
Arguments at_path {K}.

(** [prepare_update] negates exactly the Lagrange multipliers, wherever they sit in the tree,
    leaves every other array and the structure alone, and undoes itself. *)
Theorem C67_prepare_update (K : CRing) (t : tree K) :
  prepare_update (prepare_update t) = t /\
  forall path,
    (at_path t path = None <-> at_path (prepare_update t) path = None) /\
    (forall v, at_path t path = Some (Leaf v) -> at_path (prepare_update t) path = Some (Leaf v)) /\
    (forall v, at_path t path = Some (LM v) -> at_path (prepare_update t) path = Some (LM (map copp v))) /\
    (forall ch, at_path t path = Some (Node ch) ->
       exists ch', at_path (prepare_update t) path = Some (Node ch') /\ length ch' = length ch).
Proof.
  split; [apply prepare_involutive|]. intros path. rewrite prepare_path.
  destruct (at_path t path) as [s|]; cbn [option_map];
    (split; [split; [try (intros H; discriminate H); tauto | intros H; try discriminate H; reflexivity] |]).
  - split; [intros v H; injection H as ->; reflexivity|]. split; [intros v H; injection H as ->; reflexivity|].
    intros ch H. injection H as ->. exists (map prepare_update ch). split; [reflexivity|apply map_length].
  - split; [|split]; intros v H; discriminate H.
Qed.
Print Assumptions C67_prepare_update.

(** One step of [optax.chain(optax.sgd(lr), optax_prepare_update())]: gradient descent on every
    ordinary array, gradient ascent on every multiplier. *)
Theorem C67_descent_ascent (K : CRing) (lr : K) (p g : tree K) path (a b : list K) : length a = length b ->
  (at_path p path = Some (Leaf a) -> at_path g path = Some (Leaf b) ->
     exists c, at_path (mdmm_step lr p g) path = Some (Leaf c) /\ length c = length a /\
       forall i, get c i = csub (get a i) (cmul lr (get b i))) /\
  (at_path p path = Some (LM a) -> at_path g path = Some (LM b) ->
     exists c, at_path (mdmm_step lr p g) path = Some (LM c) /\ length c = length a /\
       forall i, get c i = cadd (get a i) (cmul lr (get b i))).
Proof. apply step_paths. Qed.
Print Assumptions C67_descent_ascent.

(** ** Gradients of the trained function *)
Section Gradient.
  Variable K : CRing.
  Add Ring Kring67b : (cth K).
  Local Open Scope ring_K.
  Notation D := (dualK K).

  Lemma fst_Sum n (f : nat -> D) : fst (Sum n f) = Sum n (fun i => fst (f i)).
  Proof. induction n as [|n IH]; [reflexivity|]. rewrite !Sum_S, <- IH. reflexivity. Qed.
  Lemma snd_Sum n (f : nat -> D) : snd (Sum n f) = Sum n (fun i => snd (f i)).
  Proof. induction n as [|n IH]; [reflexivity|]. rewrite !Sum_S, <- IH. reflexivity. Qed.
  Lemma get_dual (a b : list K) i : length a = length b -> get (combine a b : list D) i = (get a i, get b i).
  Proof. intros H. unfold get. apply (combine_nth a b i 0 0 H). Qed.
  Lemma length_dual (a b : list K) : length a = length b -> length (combine a b : list D) = length a.
  Proof. intros H. change (length (combine a b) = length a). rewrite combine_length. lia. Qed.
  Lemma Sum_dual n (f : nat -> D) : Sum n f = (Sum n (fun i => fst (f i)), Sum n (fun i => snd (f i))).
  Proof. rewrite <- fst_Sum, <- snd_Sum. apply surjective_pairing. Qed.
  Lemma np_sum_tab n (f : nat -> K) : np_sum (tab n f) = Sum n f.
  Proof. unfold np_sum. rewrite tab_length. apply Sum_ext. intros i Hi. apply get_tab. exact Hi. Qed.

  Variables (n me mi : nat) (f : list K -> K) (he hi : list K -> list K).
  Variables (fD : list D -> D) (heD hiD : list D -> list D).
  Variables (Df : list K -> list K) (Je Ji : list K -> list (list K)).
  Variables (half de di we wi : K) (root : K -> K) (rootD : D -> D).
  Hypothesis H2 : half + half = 1.
  Hypothesis Hf : derivative n f fD Df.
  Hypothesis Hhe : jacobian n me he heD Je.
  Hypothesis Hhi : jacobian n mi hi hiD Ji.

  Definition con_list : list (constraint K (list K)) :=
    [eq_constraint half he de we np_sum; ineq_constraint half root hi di wi np_sum].
  Definition con_listD : list (constraint D (list D)) :=
    [eq_constraint (dconst half) heD (dconst de) (dconst we) np_sum;
     ineq_constraint (dconst half) rootD hiD (dconst di) (dconst wi) np_sum].

  Definition params (x le li s : list K) : tree K := Node [Leaf x; Node [Node [LM le]; Node [LM li; Leaf s]]].
  Definition inf_i (x s : list K) i := get (hi x) i - get s i * get s i.
  Definition mult_e (x le : list K) i := get le i + de * get (he x) i.
  Definition mult_i (x li s : list K) i := get li i + di * inf_i x s i.
  (** The gradient, entry by entry. *)
  Definition sys_grad (x le li s : list K) : tree K :=
    Node [Leaf (tab n (fun j => get (Df x) j + we * Sum me (fun i => mult_e x le i * get2 (Je x) i j)
                                 + wi * Sum mi (fun i => mult_i x li s i * get2 (Ji x) i j)));
          Node [Node [LM (tab me (fun i => we * get (he x) i))];
                Node [LM (tab mi (fun i => wi * inf_i x s i));
                      Leaf (tab mi (fun i => - (wi * ((1 + 1) * mult_i x li s i * get s i))))]]].
  Definition sys_value (x le li s : list K) : K :=
    f x + (we * Sum me (fun i => get le i * get (he x) i + de * (get (he x) i * get (he x) i) * half)
           + wi * Sum mi (fun i => get li i * inf_i x s i + di * (inf_i x s i * inf_i x s i) * half)).

  Lemma half_twice a : half * a + half * a = a.
  Proof. transitivity ((half + half) * a); [ring|]. rewrite H2. ring. Qed.

  Lemma system_value x le li s : length x = n -> length le = me -> length li = mi -> length s = mi ->
    exists con, combine_constraints con_list = Some con /\ system f con (params x le li s) = Some (sys_value x le li s).
  Proof.
    intros Hx Hle Hli Hs. eexists. split; [reflexivity|].
    destruct (Hhe x x Hx Hx) as [Le _]. destruct (Hhi x x Hx Hx) as [Li _].
    unfold system, params. cbn [c_loss combined_outs con_list].
    unfold eq_constraint, ineq_constraint. cbn [c_loss]. rewrite Le, Li, Hle, Hli, Hs, !Nat.eqb_refl. cbn [andb].
    cbn [fold_left fst map snd]. f_equal. unfold sys_value. f_equal.
    unfold penalty. rewrite tab_length, !np_sum_tab, Le.
    rewrite (Sum_ext K mi _ (fun i => get li i * inf_i x s i + di * (inf_i x s i * inf_i x s i) * half)).
    - ring.
    - intros i Hi. rewrite get_tab by exact Hi. reflexivity.
  Qed.

  Lemma system_gradient x le li s : length x = n -> length le = me -> length li = mi -> length s = mi ->
    exists conD, combine_constraints con_listD = Some conD /\
      is_gradient (system fD conD) (params x le li s) (sys_grad x le li s) (sys_value x le li s).
  Proof.
    intros Hx Hle Hli Hs. eexists. split; [reflexivity|]. split.
    { cbn. rewrite !tab_length. repeat split; assumption. }
    intros d Hd. destruct d as [|?|ds]; try contradiction. cbn in Hd.
    destruct ds as [|[dx|?|?] [|[?|?|ds] [|? ?]]]; cbn in Hd; try tauto.
    destruct ds as [|[?|?|de_] [|[?|?|ds] [|? ?]]]; cbn in Hd; try tauto.
    destruct de_ as [|[?|dle|?] [|? ?]]; cbn in Hd; try tauto.
    destruct ds as [|[?|dli|?] [|[ds|?|?] [|? ?]]]; cbn in Hd; try tauto.
    destruct Hd as (Ex & ((Ele & _) & (Eli & Es & _) & _) & _).
    destruct (Hhe x dx Hx ltac:(congruence)) as [Le HeD]. destruct (Hhi x dx Hx ltac:(congruence)) as [Li HiD].
    destruct (Hf x dx Hx ltac:(congruence)) as [LD FD].
    unfold system, params. cbn [along c_loss combined_outs con_listD].
    unfold eq_constraint, ineq_constraint. cbn [c_loss].
    rewrite HeD, HiD, FD, !tab_length, (length_dual le dle Ele), (length_dual li dli Eli), (length_dual s ds Es), Hle, Hli, Hs, !Nat.eqb_refl.
    cbn [andb fold_left fst map snd]. f_equal.
    unfold penalty. rewrite !tab_length. unfold np_sum. rewrite !tab_length.
    set (He' := Sum me _). set (Hi' := Sum mi _).
    assert (EE : He' = (Sum me (fun i => get le i * get (he x) i + de * (get (he x) i * get (he x) i) * half),
                        Sum me (fun i => get (he x) i * get dle i + mult_e x le i * Sum n (fun j => get2 (Je x) i j * get dx j)))).
    { unfold He'. rewrite Sum_dual. f_equal; apply Sum_ext; intros i Hi; rewrite !(get_tab D) by exact Hi;
        rewrite (get_dual le dle) by exact Ele; unfold mult_e; cbn; [reflexivity|].
      set (J := Sum n _). generalize (get le i) (get (he x) i) (get dle i) J. intros a b c e.
      transitivity (a * e + c * b + de * (b * e) * (half + half)); [ring|]. rewrite H2. ring. }
    assert (EI : Hi' = (Sum mi (fun i => get li i * inf_i x s i + di * (inf_i x s i * inf_i x s i) * half),
                        Sum mi (fun i => inf_i x s i * get dli i + mult_i x li s i *
                          (Sum n (fun j => get2 (Ji x) i j * get dx j) - (1 + 1) * get s i * get ds i)))).
    { unfold Hi'. rewrite Sum_dual. f_equal; apply Sum_ext; intros i Hi; rewrite !(get_tab D) by exact Hi;
        rewrite (get_dual li dli), (get_dual s ds) by assumption; unfold mult_i, inf_i; cbn; [reflexivity|].
      set (J := Sum n _). generalize (get li i) (get (hi x) i) (get dli i) (get s i) (get ds i) J. intros a b c g h e.
      transitivity (a * (e - (1 + 1) * g * h) + c * (b - g * g) + di * ((b - g * g) * (e - (1 + 1) * g * h)) * (half + half)); [ring|].
      rewrite H2. ring. }
    rewrite EE, EI. clear EE EI He' Hi'.
    change (@cadd D) with (dadd K). change (@cmul D) with (dmul K). unfold dadd, dmul, dconst. cbn [fst snd].
    f_equal; [unfold sys_value; cbn [c0 dualK fst]; ring|].
    cbn [tdot sys_grad]. unfold dot. rewrite !tab_length. cbn [c0 dualK snd fst].
    rewrite (Sum_ext K n (fun i => get (tab n _) i * _) (fun j => get (Df x) j * get dx j +
       (we * Sum me (fun i => mult_e x le i * get2 (Je x) i j) * get dx j + wi * Sum mi (fun i => mult_i x li s i * get2 (Ji x) i j) * get dx j)))
      by (intros j Hj; rewrite get_tab by exact Hj; ring).
    rewrite !Sum_add.
    rewrite (Sum_ext K me (fun i => get (tab me _) i * _) (fun i => we * (get (he x) i * get dle i)))
      by (intros i Hi; rewrite get_tab by exact Hi; ring).
    rewrite (Sum_ext K mi (fun i => get (tab mi _) i * get dli i) (fun i => wi * (inf_i x s i * get dli i)))
      by (intros i Hi; rewrite get_tab by exact Hi; ring).
    rewrite (Sum_ext K mi (fun i => get (tab mi _) i * get ds i) (fun i => wi * (0 - mult_i x li s i * ((1 + 1) * get s i * get ds i))))
      by (intros i Hi; rewrite get_tab by exact Hi; ring).
    assert (SW : forall m (w : K) (c : nat -> K) (J : list (list K)),
       Sum n (fun j => w * Sum m (fun i => c i * get2 J i j) * get dx j) =
       w * Sum m (fun i => c i * Sum n (fun j => get2 J i j * get dx j))).
    { intros m w c J. rewrite <- Sum_mul_l. 
      rewrite (Sum_ext K n _ (fun j => Sum m (fun i => w * (c i * (get2 J i j * get dx j))))).
      - rewrite (Sum_swap K n m). apply Sum_ext. intros i Hi. rewrite <- !Sum_mul_l. reflexivity.
      - intros j Hj. rewrite <- Sum_mul_l, <- Sum_mul_r. apply Sum_ext. intros; ring. }
    rewrite !SW, !Sum_mul_l. 
    rewrite (Sum_ext K mi (fun i => mult_i x li s i * (_ - _)) (fun i => mult_i x li s i * Sum n (fun j => get2 (Ji x) i j * get dx j)
        + (0 - mult_i x li s i * ((1 + 1) * get s i * get ds i)))) by (intros; ring).
    rewrite Sum_add. ring.
  Qed.

  (** One step on these parameters. *)
  Lemma step_params lr x le li s : length x = n -> length le = me -> length li = mi -> length s = mi ->
    exists x' le' li' s', mdmm_step lr (params x le li s) (sys_grad x le li s) = params x' le' li' s' /\
      length x' = n /\ length le' = me /\ length li' = mi /\ length s' = mi /\
      (forall j, j < n -> get x' j = get x j - lr * (get (Df x) j + we * Sum me (fun i => mult_e x le i * get2 (Je x) i j)
                                 + wi * Sum mi (fun i => mult_i x li s i * get2 (Ji x) i j))) /\
      (forall i, i < me -> get le' i = get le i + lr * (we * get (he x) i)) /\
      (forall i, i < mi -> get li' i = get li i + lr * (wi * inf_i x s i)) /\
      (forall i, i < mi -> get s' i = get s i + lr * (wi * ((1 + 1) * mult_i x li s i * get s i))).
  Proof using Type.
    clear root rootD Hf Hhe Hhi H2 f fD heD hiD half.

    intros Hx Hle Hli Hs. unfold mdmm_step, params, sys_grad. cbn [sgd prepare_update map apply_updates].
    do 4 eexists. split; [reflexivity|].
    unfold vplus. rewrite !map_length, !combine_length, !map_length, !tab_length.
    split; [lia|]. split; [lia|]. split; [lia|]. split; [lia|].
    repeat split; intros i Hi;
      (match goal with |- get (map _ (combine ?a ?b)) _ = _ => change (map _ (combine a b)) with (vplus a b) end;
       rewrite get_vplus by (rewrite !map_length, tab_length; assumption); rewrite !get_map0 by ring; rewrite get_tab by exact Hi; ring).
  Qed.

  Lemma list_get (a b : list K) m : length a = m -> length b = m -> (forall i, i < m -> get a i = get b i) -> a = b.
  Proof using Type.
    clear root rootD Hf Hhe Hhi H2 f fD heD hiD half. intros Ha Hb H. apply (nth_ext _ _ 0 0); [congruence|]. rewrite Ha. exact H. Qed.

  Lemma stationary_kkt lr x le li s : length x = n -> length le = me -> length li = mi -> length s = mi ->
    (forall a b : K, a * b = 0 -> a = 0 \/ b = 0) -> lr <> 0 -> we <> 0 -> wi <> 0 -> (1 + 1 : K) <> 0 ->
    (mdmm_step lr (params x le li s) (sys_grad x le li s) = params x le li s <->
     kkt n me mi (Df x) (he x) (hi x) (Je x) (Ji x) we wi le li s).
  Proof using Type.
    clear root rootD Hf Hhe Hhi H2 f fD heD hiD half.
    intros Hx Hle Hli Hs ID Hlr Hwe Hwi Ht.
    destruct (step_params lr x le li s Hx Hle Hli Hs) as (x' & le' & li' & s' & -> & Lx & Lle & Lli & Ls & Ex & Ele & Eli & Es).
    assert (C : forall a b : K, a <> 0 -> a * b = 0 -> b = 0) by (intros a b Ha H; destruct (ID a b H); tauto).
    assert (Z : forall a b : K, a = a + b -> b = 0) by (intros a b H; transitivity (a + b - a); [ring|rewrite <- H; ring]).
    split.
    - intros E.
      assert (x' = x /\ le' = le /\ li' = li /\ s' = s) as (-> & -> & -> & ->) by (unfold params in E; repeat split; congruence).
      assert (I1 : forall i, i < me -> get (he x) i = 0).
      { intros i Hi. apply (C we); [exact Hwe|]. apply (C lr); [exact Hlr|]. apply (Z (get le i)). apply Ele. exact Hi. }
      assert (I2 : forall i, i < mi -> inf_i x s i = 0).
      { intros i Hi. apply (C wi); [exact Hwi|]. apply (C lr); [exact Hlr|]. apply (Z (get li i)). apply Eli. exact Hi. }
      assert (M1 : forall i, i < me -> mult_e x le i = get le i) by (intros i Hi; unfold mult_e; rewrite I1 by exact Hi; ring).
      assert (M2 : forall i, i < mi -> mult_i x li s i = get li i) by (intros i Hi; unfold mult_i; rewrite I2 by exact Hi; ring).
      split; [exact I1|]. split; [|split].
      + intros i Hi. transitivity (inf_i x s i + get s i * get s i); [unfold inf_i; ring|]. rewrite I2 by exact Hi. ring.
      + intros i Hi.
        assert (P : get li i * get s i = 0).
        { rewrite <- M2 by exact Hi. apply (C (1 + 1)); [exact Ht|]. apply (C wi); [exact Hwi|]. apply (C lr); [exact Hlr|].
          apply (Z (get s i)). rewrite (Es i Hi) at 1. ring. }
        transitivity (get li i * inf_i x s i + get li i * get s i * get s i); [unfold inf_i; ring|].
        rewrite P, I2 by exact Hi. ring.
      + intros j Hj. apply (C lr); [exact Hlr|].
        rewrite (Sum_ext K me _ (fun i => mult_e x le i * get2 (Je x) i j)) by (intros i Hi; rewrite M1 by exact Hi; reflexivity).
        rewrite (Sum_ext K mi _ (fun i => mult_i x li s i * get2 (Ji x) i j)) by (intros i Hi; rewrite M2 by exact Hi; reflexivity).
        set (G := _ + _ + _). specialize (Ex j Hj). fold G in Ex.
        transitivity (get x j - (get x j - lr * G)); [ring|]. rewrite <- Ex. ring.
    - intros (I1 & I2 & CP & ST).
      assert (I2' : forall i, i < mi -> inf_i x s i = 0) by (intros i Hi; unfold inf_i; rewrite I2 by exact Hi; ring).
      assert (M1 : forall i, i < me -> mult_e x le i = get le i) by (intros i Hi; unfold mult_e; rewrite I1 by exact Hi; ring).
      assert (M2 : forall i, i < mi -> mult_i x li s i = get li i) by (intros i Hi; unfold mult_i; rewrite I2' by exact Hi; ring).
      assert (x' = x) as ->.
      { apply (list_get _ _ n); try assumption. intros j Hj. rewrite Ex by exact Hj.
        rewrite (Sum_ext K me _ (fun i => get le i * get2 (Je x) i j)) by (intros i Hi; rewrite M1 by exact Hi; reflexivity).
        rewrite (Sum_ext K mi _ (fun i => get li i * get2 (Ji x) i j)) by (intros i Hi; rewrite M2 by exact Hi; reflexivity).
        rewrite ST by exact Hj. ring. }
      assert (le' = le) as -> by (apply (list_get _ _ me); try assumption; intros i Hi; rewrite Ele, I1 by exact Hi; ring).
      assert (li' = li) as -> by (apply (list_get _ _ mi); try assumption; intros i Hi; rewrite Eli, I2' by exact Hi; ring).
      assert (s' = s) as ->; [|reflexivity].
      apply (list_get _ _ mi); try assumption. intros i Hi. rewrite Es by exact Hi. rewrite M2 by exact Hi.
      assert (P : get li i * get s i = 0).
      { specialize (CP i Hi). rewrite I2 in CP by exact Hi. destruct (ID _ _ CP) as [->|Q]; [ring|].
        destruct (ID _ _ Q) as [->| ->]; ring. }
      transitivity (get s i + lr * (wi * ((1 + 1) * (get li i * get s i)))); [ring|]. rewrite P. ring.
  Qed.

  (** A slack at zero has a zero gradient, whatever the multiplier and the main parameters. *)
  Definition slack_gradient (x li s : list K) (i : nat) : K := - (wi * ((1 + 1) * mult_i x li s i * get s i)).
  Lemma stuck (upd : list K -> K) (xs lis ss : nat -> list K) i :
    (forall h, (forall a, In a h -> a = 0) -> upd h = 0) ->
    (forall k, get (ss (S k)) i = get (ss k) i + upd (map (fun j => slack_gradient (xs j) (lis j) (ss j) i) (seq 0 (S k)))) ->
    get (ss 0%nat) i = 0 -> forall k, get (ss k) i = 0.
  Proof using Type.
    clear root rootD Hf Hhe Hhi H2 f fD heD hiD half.
    intros Hu Hst H0.
    assert (G : forall k j, j <= k -> get (ss j) i = 0).
    { induction k as [|k IH]; intros j Hj; [replace j with 0%nat by lia; exact H0|].
      destruct (Nat.eq_dec j (S k)) as [->|Hne]; [|apply IH; lia].
      rewrite Hst, (IH k) by lia. rewrite Hu; [ring|]. intros a Ha. apply in_map_iff in Ha. destruct Ha as [j [<- Hj']].
      apply in_seq in Hj'. unfold slack_gradient. rewrite IH by lia. ring. }
    intros k. apply (G k). lia.
  Qed.
  Lemma stuck_sgd lr (xs les lis ss : nat -> list K) :
    (forall k, length (xs k) = n /\ length (les k) = me /\ length (lis k) = mi /\ length (ss k) = mi) ->
    (forall k, mdmm_step lr (params (xs k) (les k) (lis k) (ss k)) (sys_grad (xs k) (les k) (lis k) (ss k))
               = params (xs (S k)) (les (S k)) (lis (S k)) (ss (S k))) ->
    forall i, i < mi -> get (ss 0%nat) i = 0 -> forall k, get (ss k) i = 0.
  Proof using Type.
    clear root rootD Hf Hhe Hhi H2 f fD heD hiD half.
    intros HL HS i Hi H0 k. induction k as [|k IH]; [exact H0|].
    destruct (HL k) as (A & B & C & E).
    destruct (step_params lr _ _ _ _ A B C E) as (x' & le' & li' & s' & Q & _ & _ & _ & _ & _ & _ & _ & Es).
    rewrite HS in Q. assert (ss (S k) = s') as -> by (unfold params in Q; congruence).
    rewrite Es by exact Hi. rewrite IH. ring.
  Qed.

  (** Moving the multipliers by [lr * gradient] raises the loss. *)
  Lemma ascent x le le' li li' s lr :
    (forall i, i < me -> get le' i = get le i + lr * (we * get (he x) i)) ->
    (forall i, i < mi -> get li' i = get li i + lr * (wi * inf_i x s i)) ->
    sys_value x le' li' s = sys_value x le li s
      + lr * (we * we * Sum me (fun i => get (he x) i * get (he x) i) + wi * wi * Sum mi (fun i => inf_i x s i * inf_i x s i)).
  Proof using Type.
    clear root rootD Hf Hhe Hhi H2 fD heD hiD.
    intros He Hi. unfold sys_value.
    rewrite (Sum_ext K me (fun i => get le' i * _ + _) (fun i => (get le i * get (he x) i + de * (get (he x) i * get (he x) i) * half)
       + lr * we * (get (he x) i * get (he x) i))) by (intros i Hm; rewrite He by exact Hm; ring).
    rewrite (Sum_ext K mi (fun i => get li' i * _ + _) (fun i => (get li i * inf_i x s i + di * (inf_i x s i * inf_i x s i) * half)
       + lr * wi * (inf_i x s i * inf_i x s i))) by (intros i Hm; rewrite Hi by exact Hm; ring).
    rewrite !Sum_add, !Sum_mul_l. ring.
  Qed.
End Gradient.

(** The trained function of the documented set-up: objective plus combined constraint losses. *)
Theorem C67_trained_function (K : CRing) n me mi f he hi heD hiD Je Ji (half de di we wi : K) root x le li s :
  jacobian n me he heD Je -> jacobian n mi hi hiD Ji ->
  length x = n -> length le = me -> length li = mi -> length s = mi ->
  exists con, combine_constraints (con_list K he hi half de di we wi root) = Some con /\
    system f con (params K x le li s) = Some (sys_value K me mi f he hi half de di we wi x le li s).
Proof. intros He Hi. apply (system_value K n me mi f he hi heD hiD Je Ji); assumption. Qed.
Print Assumptions C67_trained_function.

(** Its gradient with respect to everything that is trained: each equality multiplier has gradient
    [weight * g(x)], each inequality multiplier [weight * (h(x) - slack^2)], the main parameters
    [Df + weight * sum (lambda + damping * infeasibility) * D constraint], and each slack
    [- 2 * weight * (lambda + damping * infeasibility) * slack]. *)
Theorem C67_gradient (K : CRing) n me mi f he hi fD heD hiD Df Je Ji (half de di we wi : K) rootD x le li s :
  cadd half half = c1 -> derivative n f fD Df -> jacobian n me he heD Je -> jacobian n mi hi hiD Ji ->
  length x = n -> length le = me -> length li = mi -> length s = mi ->
  exists conD, combine_constraints (con_listD K heD hiD half de di we wi rootD) = Some conD /\
    is_gradient (system fD conD) (params K x le li s) (sys_grad K n me mi he hi Df Je Ji de di we wi x le li s)
      (sys_value K me mi f he hi half de di we wi x le li s).
Proof. intros H2 Hf He Hi. apply (system_gradient K n me mi f he hi fD heD hiD Df Je Ji); first [assumption | exact (fun a => a)]. Qed.
Print Assumptions C67_gradient.

(** Over an integral domain, the points that a step leaves where they are, are exactly the
    Karush-Kuhn-Tucker points (up to the sign of the inequality multipliers). *)
Theorem C67_stationary_points (K : CRing) n me mi he hi Df Je Ji (de di we wi lr : K) x le li s :
  (forall a b : K, cmul a b = c0 -> a = c0 \/ b = c0) ->
  lr <> c0 -> we <> c0 -> wi <> c0 -> cadd c1 c1 <> (c0 : K) ->
  length x = n -> length le = me -> length li = mi -> length s = mi ->
  mdmm_step lr (params K x le li s) (sys_grad K n me mi he hi Df Je Ji de di we wi x le li s) = params K x le li s <->
  kkt n me mi (Df x) (he x) (hi x) (Je x) (Ji x) we wi le li s.
Proof. intros. apply stationary_kkt; assumption. Qed.
Print Assumptions C67_stationary_points.

(** The multiplier half of a step raises the loss by [lr] times the weighted sum of squared
    infeasibilities. *)
Theorem C67_ascent (K : CRing) me mi f he hi (half de di we wi lr : K) x le le' li li' s :
  (forall i, i < me -> get le' i = cadd (get le i) (cmul lr (cmul we (get (he x) i)))) ->
  (forall i, i < mi -> get li' i = cadd (get li i) (cmul lr (cmul wi (inf_i K hi x s i)))) ->
  sys_value K me mi f he hi half de di we wi x le' li' s =
  cadd (sys_value K me mi f he hi half de di we wi x le li s)
    (cmul lr (cadd (cmul (cmul we we) (Sum me (fun i => cmul (get (he x) i) (get (he x) i))))
                   (cmul (cmul wi wi) (Sum mi (fun i => cmul (inf_i K hi x s i) (inf_i K hi x s i)))))).
Proof. apply ascent. Qed.
Print Assumptions C67_ascent.

(** Initialisation. Multipliers start at zero. With an exact square root of the positive part, the
    reported infeasibility of an inequality is the violation [min(h, 0)] at the start: zero for
    every satisfied entry. And whenever an infeasibility is zero, the entry is a square, hence
    non-negative in any ordered ring. *)
Theorem C67_inequality_start (K : CRing) (X : Type) (nonneg : K -> bool) (root : K -> K) (half damping weight : K) red (h : X -> list K) x :
  (forall a, cmul (root a) (root a) = if nonneg a then a else c0) ->
  exists p l inf, c_init (ineq_constraint half root h damping weight red) x = p /\
    at_path p [0] = Some (LM (map (fun _ => c0) (h x))) /\
    c_loss (ineq_constraint half root h damping weight red) p x = Some (l, Leaf inf) /\
    length inf = length (h x) /\
    forall i, i < length (h x) -> get inf i = if nonneg (get (h x) i) then c0 else get (h x) i.
Proof.
  intros Hr.
  set (inf := tab (length (h x)) (fun i => csub (get (h x) i) (cmul (get (map root (h x)) i) (get (map root (h x)) i)))).
  set (p := c_init (ineq_constraint half root h damping weight red) x).
  exists p, (cmul weight (red (penalty half damping (map (fun _ => c0) (h x)) inf))), inf.
  split; [reflexivity|]. split; [reflexivity|].
  split; [unfold p; cbn [c_init c_loss ineq_constraint]; rewrite !map_length, !Nat.eqb_refl; reflexivity|].
  split; [apply tab_length|]. intros i Hi. unfold inf. rewrite get_tab by exact Hi.
  assert (E : get (map root (h x)) i = root (get (h x) i)) by (unfold get; apply nth_map_in; exact Hi).
  rewrite E, Hr. destruct (nonneg (get (h x) i)); [apply sub_self|apply sub_zero].
Qed.
Print Assumptions C67_inequality_start.

Theorem C67_zero_infeasibility_is_feasible (K : CRing) (X : Type) (nonneg : K -> Prop) root (half damping weight : K) red (h : X -> list K) p x l inf i :
  (forall a, nonneg (cmul a a)) ->
  c_loss (ineq_constraint half root h damping weight red) p x = Some (l, Leaf inf) ->
  i < length (h x) -> get inf i = c0 -> nonneg (get (h x) i).
Proof.
  intros Hn HL Hi H0. destruct p as [|?|[|[?|lam|?] [|[sl|?|?] [|? ?]]]]; try discriminate HL.
  cbn [c_loss ineq_constraint] in HL. destruct (_ && _); [|discriminate HL].
  match type of HL with Some (_, Leaf ?t) = _ => assert (inf = t) as -> by congruence end.
  rewrite get_tab in H0 by exact Hi.
  assert (E : get (h x) i = cmul (get sl i) (get sl i)).
  { apply sub_eq. exact H0. }
  rewrite E. apply Hn.
Qed.
Print Assumptions C67_zero_infeasibility_is_feasible.

(** [combine]: parameters in, losses summed, infeasibilities collected, in the order given. *)
Theorem C67_combine (K : CRing) (X : Type) (cs : list (constraint K X)) ps x outs : cs <> [] ->
  length ps = length cs ->
  (forall k c p, nth_error cs k = Some c -> nth_error ps k = Some p -> c_loss c p x = nth_error outs k) ->
  length outs = length cs ->
  exists con, combine_constraints cs = Some con /\
    c_init con x = Node (map (fun c => c_init c x) cs) /\
    c_loss con (Node ps) x = Some (sumf fst outs, Node (map snd outs)).
Proof.
  intros Hne Hl Ho Hlo. destruct cs as [|c0' cs']; [congruence|]. eexists. split; [reflexivity|]. split; [reflexivity|].
  cbn [c_loss]. set (cs := c0' :: cs') in *. clearbody cs. clear Hne.
  assert (E : combined_outs ps cs x = Some outs).
  { revert cs outs Hl Ho Hlo. induction ps as [|p ps IH]; intros cs outs Hl Ho Hlo.
    - destruct cs; [|discriminate Hl]. destruct outs; [reflexivity|discriminate Hlo].
    - destruct cs as [|c cs]; [discriminate Hl|]. destruct outs as [|o outs]; [discriminate Hlo|].
      cbn [combined_outs]. rewrite (Ho 0 c p eq_refl eq_refl). cbn [nth_error].
      rewrite (IH cs outs); [reflexivity|cbn in Hl; lia| |cbn in Hlo; lia].
      intros k c1' p1 H1 H2. apply (Ho (S k)); assumption. }
  rewrite E. f_equal. f_equal. clear.
  rewrite fold_sum. apply add_zero.
Qed.
Print Assumptions C67_combine.

(** FINDING. Missing parameters are not noticed: with fewer parameters than constraints, the
    constraints without parameters are dropped from the loss. *)
Theorem C67_combine_drops_constraints (K : CRing) (X : Type) (c : constraint K X) cs ps x con con' :
  combine_constraints cs = Some con -> combine_constraints (cs ++ [c]) = Some con' -> length ps <= length cs ->
  c_loss con' (Node ps) x = c_loss con (Node ps) x.
Proof.
  intros H1 H2 Hl. destruct cs as [|d cs]; [discriminate H1|].
  injection H1 as <-. injection H2 as <-. cbn [c_loss].
  set (l := d :: cs) in *. change (d :: cs ++ [c]) with (l ++ [c]). clearbody l.
  assert (E : combined_outs ps (l ++ [c]) x = combined_outs ps l x); [|rewrite E; reflexivity].
  revert l Hl. induction ps as [|p ps IH]; intros l Hl; [destruct l; reflexivity|].
  destruct l as [|a l]; [cbn in Hl; lia|]. cbn [app combined_outs]. rewrite IH by (cbn in Hl; lia). reflexivity.
Qed.
Print Assumptions C67_combine_drops_constraints.

(** FINDING. A slack that is zero stays zero for ever, for every optimizer that computes the update
    of an entry from the gradients that entry has seen and answers zeros with zero. *)
Theorem C67_zero_slack_is_stuck (K : CRing) (hi : list K -> list K) (di wi : K) (upd : list K -> K) xs lis ss i :
  (forall h, (forall a, In a h -> a = c0) -> upd h = c0) ->
  (forall k, get (ss (S k)) i =
     cadd (get (ss k) i) (upd (map (fun j => slack_gradient K hi di wi (xs j) (lis j) (ss j) i) (seq 0 (S k))))) ->
  get (ss 0) i = c0 -> forall k, get (ss k) i = c0.
Proof. apply stuck. Qed.
Print Assumptions C67_zero_slack_is_stuck.

(** So an inequality entry that is violated (or exactly active) at the start is treated as an
    equality: whatever the run does, a point it settles at has [h = 0] there, even if the solution
    of the problem has [h > 0]. *)
Theorem C67_violated_start_becomes_equality (K : CRing) n me mi he hi Df Je Ji (de di we wi lr : K) xs les lis ss i k :
  (forall a b : K, cmul a b = c0 -> a = c0 \/ b = c0) ->
  lr <> c0 -> we <> c0 -> wi <> c0 -> cadd c1 c1 <> (c0 : K) ->
  (forall k, length (xs k) = n /\ length (les k) = me /\ length (lis k) = mi /\ length (ss k) = mi) ->
  (forall k, mdmm_step lr (params K (xs k) (les k) (lis k) (ss k)) (sys_grad K n me mi he hi Df Je Ji de di we wi (xs k) (les k) (lis k) (ss k))
             = params K (xs (S k)) (les (S k)) (lis (S k)) (ss (S k))) ->
  i < mi -> get (ss 0) i = c0 ->
  params K (xs (S k)) (les (S k)) (lis (S k)) (ss (S k)) = params K (xs k) (les k) (lis k) (ss k) ->
  get (hi (xs k)) i = c0.
Proof.
  intros ID H1 H2 H3 H4 HL HS Hi H0 Hfix.
  pose proof (stuck_sgd K n me mi he hi Df Je Ji de di we wi lr xs les lis ss HL HS i Hi H0 k) as Hz.
  destruct (HL k) as (A & B & C & D).
  pose proof (HS k) as Hst. rewrite Hfix in Hst.
  apply C67_stationary_points in Hst; try assumption. destruct Hst as (_ & I2 & _).
  rewrite I2 by exact Hi. rewrite Hz. apply zero_sq.
Qed.
Print Assumptions C67_violated_start_becomes_equality.

From Coq Require Import QArith Qcanon.
From Verif Require Import Homog_Props.
Local Close Scope Qc_scope. Local Close Scope Q_scope. Local Open Scope nat_scope.
(** Minimise [x^2 + y^2] subject to [x + y = 2] and [x + 3 >= 0]. *)
Definition ex_f {L : CRing} (x : list L) : L := cadd (cmul (get x 0) (get x 0)) (cmul (get x 1) (get x 1)).
Definition ex_he {L : CRing} (two : L) (x : list L) : list L := [csub (cadd (get x 0) (get x 1)) two].
Definition ex_hi {L : CRing} (three : L) (x : list L) : list L := [cadd (get x 0) three].
Definition ex_Df (x : list QcR) : list QcR := [cmul (qc 2) (get x 0); cmul (qc 2) (get x 1)].
Definition ex_Je (x : list QcR) : list (list QcR) := [[qc 1; qc 1]].
Definition ex_Ji (x : list QcR) : list (list QcR) := [[qc 1; qc 0]].
Notation D := (dualK QcR).
Lemma qc2 : qc 2 = (cadd c1 c1 : QcR). Proof. apply Qc_is_canon; vm_compute; reflexivity. Qed.
Lemma qc1 : qc 1 = (c1 : QcR). Proof. apply Qc_is_canon; vm_compute; reflexivity. Qed.
Lemma qc0 : qc 0 = (c0 : QcR). Proof. apply Qc_is_canon; vm_compute; reflexivity. Qed.
Section Ex.
  Add Ring Qr67 : (cth QcR).
  Lemma ex_derivative : derivative 2 (ex_f (L := QcR)) (ex_f (L := D)) ex_Df.
  Proof.
    intros x dx Hx Hd. split; [reflexivity|].
    destruct x as [|x [|y [|? ?]]]; try discriminate Hx. destruct dx as [|dx [|dy [|? ?]]]; try discriminate Hd.
    unfold ex_f, ex_Df, get, Sum. cbn [combine nth seq sumf]. rewrite qc2.
    change (@cadd D) with (dadd QcR). change (@cmul D) with (dmul QcR). unfold dadd, dmul. cbn [fst snd].
    apply f_equal2; [reflexivity|]. ring.
  Qed.
  Lemma ex_je (b : QcR) : jacobian 2 1 (ex_he b) (ex_he (L := D) (dconst b)) ex_Je.
  Proof.
    intros x dx Hx Hd. split; [reflexivity|].
    destruct x as [|x [|y [|? ?]]]; try discriminate Hx. destruct dx as [|dx [|dy [|? ?]]]; try discriminate Hd.
    unfold ex_he, ex_Je, get2, get, Sum, tab. cbn [combine nth seq sumf map]. rewrite qc1.
    change (@cadd D) with (dadd QcR). change (@csub D) with (dsub QcR). unfold dadd, dsub, dconst. cbn [fst snd].
    apply f_equal2; [|reflexivity]. apply f_equal2; [reflexivity|]. ring.
  Qed.
  Lemma ex_ji (b : QcR) : jacobian 2 1 (ex_hi b) (ex_hi (L := D) (dconst b)) ex_Ji.
  Proof.
    intros x dx Hx Hd. split; [reflexivity|].
    destruct x as [|x [|y [|? ?]]]; try discriminate Hx. destruct dx as [|dx [|dy [|? ?]]]; try discriminate Hd.
    unfold ex_hi, ex_Ji, get2, get, Sum, tab. cbn [combine nth seq sumf map]. rewrite qc1, qc0.
    change (@cadd D) with (dadd QcR). unfold dadd, dconst. cbn [fst snd].
    apply f_equal2; [|reflexivity]. apply f_equal2; [reflexivity|]. ring.
  Qed.
End Ex.
Lemma qc_domain (a b : QcR) : cmul a b = c0 -> a = c0 \/ b = c0.
Proof. intros H. exact (Qcmult_integral a b H). Qed.
Lemma qc_ne (a b : Q) : ~ (a == b)%Q -> Q2Qc a <> Q2Qc b.
Proof. intros H E. apply H. apply (f_equal this) in E. cbn in E. apply Qred_eq_iff. exact E. Qed.
Definition qn (a : Z) : QcR := qc a.
(** The minimum is a stationary point, with the unit step. *)
Example C67_example :
  cadd qhalf qhalf = c1 /\ derivative 2 (ex_f (L := QcR)) (ex_f (L := D)) ex_Df /\
  jacobian 2 1 (ex_he (qc 2)) (ex_he (L := D) (dconst (qc 2))) ex_Je /\
  jacobian 2 1 (ex_hi (qc 3)) (ex_hi (L := D) (dconst (qc 3))) ex_Ji /\
  kkt 2 1 1 (ex_Df [qc 1; qc 1]) (ex_he (qc 2) [qc 1; qc 1]) (ex_hi (qc 3) [qc 1; qc 1])
    (ex_Je []) (ex_Ji []) (qc 1) (qc 1) [qn (-2)] [qn 0] [qn 2].
Proof.
  split; [apply Qc_is_canon; vm_compute; reflexivity|]. split; [apply ex_derivative|]. split; [apply ex_je|].
  split; [apply ex_ji|]. split; [|split; [|split]].
  - intros [|i] Hi; [apply Qc_is_canon; vm_compute; reflexivity|lia].
  - intros [|i] Hi; [apply Qc_is_canon; vm_compute; reflexivity|lia].
  - intros [|i] Hi; [apply Qc_is_canon; vm_compute; reflexivity|lia].
  - intros [|[|i]] Hi; [apply Qc_is_canon; vm_compute; reflexivity..|lia].
Qed.
(** The point (-3, 5) is where a run started with a violated [x + 3 >= 0] can settle: it satisfies
    every hypothesis of [C67_violated_start_becomes_equality] (the run that stays there), although
    the objective is 34 there and 2 at the solution. *)
Example C67_example_stuck :
  let x := [qc (-3); qc 5] in
  mdmm_step (qc 1) (params QcR x [qn (-10)] [qn 16] [qn 0])
    (sys_grad QcR 2 1 1 (ex_he (qc 2)) (ex_hi (qc 3)) ex_Df ex_Je ex_Ji (qc 1) (qc 1) (qc 1) (qc 1) x [qn (-10)] [qn 16] [qn 0])
  = params QcR x [qn (-10)] [qn 16] [qn 0] /\
  get [qn 0] 0 = c0 /\ ex_f x = qc 34 /\ ex_f [qc 1; qc 1] = qc 2 /\
  (qc 1 : QcR) <> c0 /\ cadd c1 c1 <> (c0 : QcR).
Proof.
  split.
  { apply C67_stationary_points; try reflexivity; try (apply qc_domain); try (apply qc_ne; discriminate).
    split; [|split; [|split]].
    - intros [|i] Hi; [apply Qc_is_canon; vm_compute; reflexivity|lia].
    - intros [|i] Hi; [apply Qc_is_canon; vm_compute; reflexivity|lia].
    - intros [|i] Hi; [apply Qc_is_canon; vm_compute; reflexivity|lia].
    - intros [|[|i]] Hi; [apply Qc_is_canon; vm_compute; reflexivity..|lia]. }
  split; [reflexivity|]. split; [apply Qc_is_canon; vm_compute; reflexivity|].
  split; [apply Qc_is_canon; vm_compute; reflexivity|]. split; [apply qc_ne; discriminate|].
  rewrite <- qc2. apply qc_ne. discriminate.
Qed.
(** An exact square root of the positive part, on the squares: violated entries keep their value. *)
Example C67_example_start :
  c_loss (ineq_constraint qhalf (fun a => if Qc_eq_dec a (qc 4) then qc 2 else qc 0) (fun x : list QcR => x) (qc 1) (qc 1) np_sum)
    (Node [LM [qc 0; qc 0]; Leaf [qc 2; qc 0]]) [qc 4; qc (-3)] = Some (Q2Qc (9 # 2), Leaf [qc 0; qc (-3)]).
Proof.
  cbn [c_loss ineq_constraint length Nat.eqb andb]. apply f_equal. apply f_equal2.
  - apply Qc_is_canon; vm_compute; reflexivity.
  - apply f_equal. unfold tab. cbn [seq map length]. apply f_equal2; [apply Qc_is_canon; vm_compute; reflexivity|].
    apply f_equal2; [apply Qc_is_canon; vm_compute; reflexivity|reflexivity].
Qed.

Section Zero.
  Variable K : CRing.
  Add Ring Kring67z : (cth K).
  Lemma zero_term (a b : K) : cadd (cmul c0 a) b = b. Proof. ring. Qed.
End Zero.
(** An equality constraint starts with multiplier zero too: the first loss is the weighted damping term alone, and the reported infeasibility is the constraint's own values. *)
Theorem C67_equality_start (K : CRing) (X : Type) (half damping weight : K) red (h : X -> list K) x :
  exists p l, c_init (eq_constraint half h damping weight red) x = p /\
    at_path p [0] = Some (LM (map (fun _ => c0) (h x))) /\
    c_loss (eq_constraint half h damping weight red) p x = Some (l, Leaf (h x)) /\
    l = cmul weight (red (map (fun v => cmul (cmul damping (cmul v v)) half) (h x))).
Proof.
  eexists. eexists. split; [reflexivity|]. split; [reflexivity|]. cbn [c_init c_loss eq_constraint]. rewrite map_length, Nat.eqb_refl. split; [reflexivity|]. f_equal. f_equal.
  unfold penalty. apply (nth_ext _ _ c0 c0); [rewrite tab_length, map_length; reflexivity|]. intros i Hi. rewrite tab_length in Hi.
  fold (get (tab (length (h x)) (fun i => cadd (cmul (get (map (fun _ => c0) (h x)) i) (get (h x) i)) (cmul (cmul damping (cmul (get (h x) i) (get (h x) i))) half))) i). rewrite get_tab by exact Hi.
  rewrite (nth_map_in (fun v => cmul (cmul damping (cmul v v)) half) (h x) c0 c0) by exact Hi. fold (get (h x) i).
  assert (Z : get (map (fun _ => c0 : K) (h x)) i = c0) by (unfold get; rewrite (nth_map_in (fun _ => c0 : K) (h x) c0 c0) by exact Hi; reflexivity). rewrite Z.
  apply zero_term.
Qed.
Print Assumptions C67_equality_start.
