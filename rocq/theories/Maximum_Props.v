(** C124: discrete maximum principle of conduction problems. *)
From Coq Require Import List Arith Lia ZArith Relations.
From Verif Require Import Base Csr_Model Assembly_Model AssemblyMain_Proofs Dof_Model Dof_Spec Dof_Proofs
                          Kernel_Model Kernel_Spec Kernel_Proofs Kernel_Props Moment_Props Patch_Props Potential_Props.
Local Open Scope nat_scope.
Import ListNotations.

(** ** Specification *)
Section Spec.
  Variable K : CRing.
  Local Open Scope ring_K.
  (** The order is total (and decided), and products of nonzero numbers are nonzero. *)
  Record total_domain (le : K -> K -> Prop) : Type := {
    td_order : ordered le;
    td_dec : forall a b, {le a b} + {~ le a b /\ le b a};
    td_domain : forall a b : K, a * b = 0 -> a = 0 \/ b = 0
  }.
  Variable le : K -> K -> Prop.
  Variables (dim nq nfq : nat) (det : list (list K) -> K) (inv : list (list K) -> list (list K)) (norm : list K -> K) (V W : Type).
  Variables (f : fe K) (ph : physics K V) (vars : nat -> nat -> V) (bnd : list (bdata K W)).
  (** The flux is the gradient times a non-negative conductivity, which may depend on position and gradient. *)
  Definition conducts (kappa : list (list K) -> nat -> nat -> K) : Prop :=
    match match ph_tensor ph with Some t => Some t | None => ph_energy_grad ph end with
    | Some tm => forall G c q, c < length (fe_cells f) -> q < nq -> le 0 (kappa G c q) /\ forall d, d < dim -> get2 (tm G (vars c q)) 0 d = kappa G c q * get2 G 0 d
    | None => False
    end.
  (** Inner product of the gradients of two shape functions of a cell. *)
  Definition coupling (c q n m : nat) : K := Sum dim (fun d => shape_grad dim inv f c q n d * shape_grad dim inv f c q m d).
  (** Non-negative weights and shape functions; no coupling of two shape functions of a cell is positive. *)
  Definition nonobtuse : Prop :=
    (forall c q, c < length (fe_cells f) -> q < nq -> le 0 (JxW dim det f c q)) /\
    (forall q n, q < nq -> n < fe_nn f -> le 0 (fe_sv f q n)) /\
    (forall b p q, In b bnd -> In p (bd_inds b) -> q < nfq -> le 0 (nanson dim det inv norm f (fst p) (snd p) q)) /\
    (forall b p q n, In b bnd -> In p (bd_inds b) -> q < nfq -> n < fe_nn f -> le 0 (fe_fsv f (snd p) q n)) /\
    (forall c q n m, c < length (fe_cells f) -> q < nq -> n < fe_nn f -> m < fe_nn f -> n <> m -> le (coupling c q n m) 0).
  (** Heat can pass between the nodes [a] and [b]: some cell couples them, with positive conductivity. *)
  Definition link (kappa : list (list K) -> nat -> nat -> K) (a b : nat) : Prop :=
    exists c q n m, c < length (fe_cells f) /\ q < nq /\ n < fe_nn f /\ m < fe_nn f /\ n <> m /\ node_of f c n = a /\ node_of f c m = b /\
      JxW dim det f c q <> 0 /\ coupling c q n m <> 0 /\ forall G, kappa G c q <> 0.
  Definition supported (kappa : list (list K) -> nat -> nat -> K) (rows : list nat) : Prop :=
    forall a, a < length (fe_points f) -> exists r, In r rows /\ clos_refl_trans nat (link kappa) a r.
  (** The body and surface terms at [u] have the sign [sg] everywhere ([1]: heat only leaves, [-1]: heat only enters). *)
  Definition terms_sign (sg : K) (u : list K) : Prop :=
    (forall mm c q, ph_mass ph = Some mm -> c < length (fe_cells f) -> q < nq ->
       le 0 (sg * get (mm (field_at [f] 0 u c q) (quad_point dim f c q) (vars c q)) 0)) /\
    (forall b sm c e w q, In b bnd -> bp_map (bd_ph b) = Some sm -> In ((c, e), w) (combine (bd_inds b) (bd_vars b)) -> q < nfq ->
       le 0 (sg * get (sm (face_field_at [f] 0 u c e q) (face_point dim f c e q) (w q)) 0)).
End Spec.
Arguments total_domain {K}. Arguments conducts {K} le dim nq {V}. Arguments coupling {K}. Arguments nonobtuse {K} le dim nq nfq det inv norm {W}. Arguments link {K}.
Arguments supported {K}. Arguments terms_sign {K} le dim nq nfq {V W}.

Section Proofs.
  Variable K : CRing.
  Add Ring KR124 : (cth K).
  Local Open Scope ring_K.
  Variable le : K -> K -> Prop.
  Hypothesis (TD : total_domain le).
  Let O := td_order _ _ TD.
  Lemma argmax n (g : nat -> K) : 0 < n -> exists i, i < n /\ forall j, j < n -> le (g j) (g i).
  Proof using TD.
    induction n as [|n IH]; [lia|]. intros _. destruct n as [|n].
    - exists 0%nat. split; [lia|]. intros j Hj. assert (j = 0%nat) as -> by lia. apply (le_refl _ _ O).
    - destruct IH as (i & Hi & M); [lia|]. destruct (td_dec _ _ TD (g (S n)) (g i)) as [L|[_ L]].
      + exists i. split; [lia|]. intros j Hj. destruct (Nat.eq_dec j (S n)) as [->|]; [exact L|apply M; lia].
      + exists (S n). split; [lia|]. intros j Hj. destruct (Nat.eq_dec j (S n)) as [->|]; [apply (le_refl _ _ O)|]. eapply (le_trans _ _ O); [apply M; lia|exact L].
  Qed.
  Lemma neg_mul a b : le a 0 -> le b 0 -> le 0 (a * b).
  Proof using O.
    intros Ha Hb. replace (a * b) with ((0 - a) * (0 - b)) by ring. apply (le_mul _ _ O); apply (le0_sub K le O); assumption.
  Qed.
  Lemma le0_add a b : le 0 a -> le 0 b -> le 0 (a + b).
  Proof using O. intros Ha Hb. replace (@c0 K) with (@c0 K + 0) at 1 by ring. apply (le_add _ _ O); assumption. Qed.
  Lemma add_zero a b : le 0 a -> le 0 b -> a + b = 0 -> a = 0.
  Proof using O.
    intros Ha Hb E. apply (le_antisym _ _ O); [|exact Ha]. rewrite <- E. replace a with (a + 0) at 1 by ring. apply (le_add _ _ O); [apply (le_refl _ _ O)|exact Hb].
  Qed.
  Lemma sumf_nonneg {A} (l : list A) (g : A -> K) : (forall i, In i l -> le 0 (g i)) -> le 0 (sumf g l).
  Proof using O.
    intros Hg. induction l as [|x l IH]; [apply (le_refl _ _ O)|]. cbn. apply le0_add; [apply Hg; left; reflexivity|apply IH; intros; apply Hg; right; assumption].
  Qed.
  Lemma flip x y : le x y -> le (- (1) * y) (- (1) * x).
  Proof using O. intros L. apply (sub_le0 K le O). match goal with |- le 0 ?z => replace z with (y - x) by ring end. apply (le0_sub K le O). exact L. Qed.
  Lemma unflip x y : le (- (1) * y) (- (1) * x) -> le x y.
  Proof using O. intros L. apply (sub_le0 K le O). pose proof (le0_sub K le O _ _ L) as E. match goal with |- le 0 ?z => match type of E with le _ ?w => replace z with w by ring end end. exact E. Qed.
  Lemma sq_neg : - (1) * - (1) = (1 : K).
  Proof using. ring. Qed.
  Section Problem.
  Variables (dim nq nfq : nat) (det : list (list K) -> K) (inv : list (list K) -> list (list K)) (norm : list K -> K) (V W : Type).
  Variables (f : fe K) (vw : view) (ph : physics K V) (vars : nat -> nat -> V) (bnd : list (bdata K W))
            (vj : list K -> vinp K V -> list K) (sj : list K -> finp K W -> list K) (xv : vinp K V) (xs : finp K W)
            (pb : problem K (vinp K V) (finp K W)) (bs0 : nat).
  Hypothesis (WF : wf_fes [f]).
  Hypothesis (WB : forall b, In b bnd -> wf_bdata [f] b).
  Hypothesis (TJ : forall u x, length (vj u x) = (num_local [f] * num_local [f])%nat).
  Hypothesis (TS : forall u x, length (sj u x) = (num_local [f] * num_local [f])%nat).
  Hypothesis (Hbs : (0 < bs0)%nat).
  Hypothesis (PU : ph_universal ph = None).
  Hypothesis (PE : ph_extra ph = None).
  Hypothesis (PB : forall b, In b bnd -> bp_universal (bd_ph b) = None).
  Hypothesis (EB : build dim nq nfq det inv norm [f] vw ph vars bnd vj sj xv xs = Some pb).
  Hypothesis (Ev : fe_vec f = 1%nat).
  Hypothesis (U : unity K dim f).
  Variable kappa : list (list K) -> nat -> nat -> K.
  Hypothesis (CO : conducts le dim nq f ph vars kappa).
  Hypothesis (NO : nonobtuse le dim nq nfq det inv norm f bnd).
  Variable sg : K.
  Hypothesis (Hsg : sg * sg = 1).
  Variable u : list K.
  Hypothesis (TSg : terms_sign le dim nq nfq f ph vars bnd sg u).
  Local Notation N := (length (fe_points f)).
  Variable M : K.
  Hypothesis (HM : forall i, i < N -> le (sg * get u i) M).
  Definition top (a : nat) : K := if td_dec _ _ TD M (sg * get u a) then 1 else 0.
  Definition tops : list K := tab N top.
  Lemma nodal1 v c n : nodal [f] 0 v c n 0 = get v (node_of f c n).
  Proof using Ev. unfold nodal. rewrite dof_single. cbn [fe_at nth]. rewrite Ev. f_equal. rewrite Nat.mul_1_r, Nat.add_0_r. reflexivity. Qed.
  Lemma top_case a : a < N -> (top a = 0) \/ (top a = 1 /\ sg * get u a = M).
  Proof using HM.
    intros Ha. unfold top. destruct (td_dec _ _ TD M (sg * get u a)) as [L|_]; [right|left; reflexivity]. split; [reflexivity|]. apply (le_antisym _ _ O); [apply HM; exact Ha|exact L].
  Qed.
  Lemma top_nonneg : le 0 1.
  Proof using TD. destruct (td_dec _ _ TD 0 1) as [L|[_ L]]; [exact L|]. replace (@c1 K) with (@c1 K * 1) by ring. apply neg_mul; exact L. Qed.
  Lemma top_le a : a < N -> le 0 (top a).
  Proof using HM. intros Ha. destruct (top_case a Ha) as [->|[-> _]]; [apply (le_refl _ _ O)|apply top_nonneg]. Qed.
  Lemma get_tops c n : c < length (fe_cells f) -> n < fe_nn f -> nodal [f] 0 tops c n 0 = top (node_of f c n).
  Proof using Ev WF. intros Hc Hn. rewrite nodal1. unfold tops. apply get_tab. apply node_bound; assumption. Qed.
  (** One coupling contribution. *)
  Definition part c q n m : K := top (node_of f c n) * ((sg * get u (node_of f c m) - M) * coupling dim inv f c q m n).
  Lemma part_nonneg c q n m : c < length (fe_cells f) -> q < nq -> n < fe_nn f -> m < fe_nn f -> le 0 (part c q n m).
  Proof using HM NO WF.
    intros Hc Hq Hn Hm. unfold part. pose proof (node_bound K f c n WF Hc Hn) as Bn. pose proof (node_bound K f c m WF Hc Hm) as Bm.
    destruct (Nat.eq_dec n m) as [->|D].
    - destruct (top_case _ Bm) as [->|[-> E]]; [|rewrite E]; match goal with |- le 0 ?x => replace x with (@c0 K) by ring end; apply (le_refl _ _ O).
    - apply (le_mul _ _ O); [apply top_le; exact Bn|]. apply neg_mul.
      + pose proof (HM _ Bm) as L. pose proof (le_add _ _ O _ _ _ _ L (le_refl _ _ O (- M))) as E. replace (M + - M) with (@c0 K) in E by ring.
        match goal with |- le ?x _ => match type of E with le ?y _ => replace x with y by ring end end. exact E.
      + destruct NO as (_ & _ & _ & _ & C). apply C; auto.
  Qed.
  Lemma flux c q : c < length (fe_cells f) ->
    sg * Sum dim (fun d => get2 (grad_at dim inv [f] 0 u c q) 0 d * get2 (grad_at dim inv [f] 0 tops c q) 0 d) = Sum (fe_nn f) (fun n => Sum (fe_nn f) (fun m => part c q n m)).
  Proof using Ev WF U.
    intros Hc. rewrite <- Sum_mul_l.
    transitivity (Sum dim (fun d => Sum (fe_nn f) (fun n => Sum (fe_nn f) (fun m =>
       top (node_of f c n) * ((sg * get u (node_of f c m) - M) * (shape_grad dim inv f c q m d * shape_grad dim inv f c q n d)))))).
    - apply Sum_ext. intros d Hd. unfold grad_at. cbn [fe_at nth]. rewrite Ev. rewrite !(get2_tab K _ dim) by (exact Nat.lt_0_1 || exact Hd).
      set (A := Sum (fe_nn f) (fun n => shape_grad dim inv f c q n d * nodal [f] 0 u c n 0)).
      assert (EA : sg * A = Sum (fe_nn f) (fun m => (sg * get u (node_of f c m) - M) * shape_grad dim inv f c q m d)).
      { transitivity (sg * A - M * Sum (fe_nn f) (fun n => shape_grad dim inv f c q n d)); [rewrite (shape_grad_unity K dim inv f c q d U); ring|].
        unfold A. rewrite <- !Sum_mul_l, <- Sum_sub. apply Sum_ext. intros m Hm. rewrite nodal1. ring. }
      match goal with |- sg * (A * ?x) = _ => transitivity (sg * A * x); [ring|rewrite EA] end.
      rewrite <- Sum_mul_l. apply Sum_ext. intros n Hn. rewrite get_tops by assumption. rewrite <- Sum_mul_r. apply Sum_ext. intros m Hm. ring.
    - rewrite Sum_swap. apply Sum_ext. intros n Hn. rewrite Sum_swap. apply Sum_ext. intros m Hm. unfold part, coupling. rewrite <- !Sum_mul_l. apply Sum_ext. intros d Hd. ring.
  Qed.
  Lemma field_tops c q : c < length (fe_cells f) -> q < nq -> le 0 (get (field_at [f] 0 tops c q) 0).
  Proof using Ev WF HM NO.
    intros Hc Hq. unfold field_at. cbn [fe_at nth]. rewrite Ev. rewrite get_tab by exact Nat.lt_0_1. apply (Sum_nonneg K le O). intros n Hn. rewrite get_tops by assumption.
    apply (le_mul _ _ O); [apply NO; assumption|apply top_le; apply node_bound; assumption].
  Qed.
  Lemma face_tops b p q : In b bnd -> In p (bd_inds b) -> q < nfq -> le 0 (get (face_field_at [f] 0 tops (fst p) (snd p) q) 0).
  Proof using Ev WF WB HM NO.
    intros Hb Hp Hq. unfold face_field_at. cbn [fe_at nth]. rewrite Ev. rewrite get_tab by exact Nat.lt_0_1. apply (Sum_nonneg K le O). intros n Hn.
    assert (Hc : fst p < length (fe_cells f)) by (apply (proj2 (WB b Hb) p Hp)).
    rewrite get_tops by assumption. destruct NO as (_ & _ & _ & F & _). apply (le_mul _ _ O); [apply (F b p q n); assumption|apply top_le; apply node_bound; assumption].
  Qed.
  Lemma one_dot1 (x y : list K) : dot1 1 x y = get x 0 * get y 0.
  Proof using. unfold dot1, Sum. cbn. ring. Qed.
  (** If no top node is constrained, every coupling contribution vanishes. *)
  Lemma all_vanish rows : equilibrium (pr_n pb) rows (get_res pb bs0 u) -> (forall r, In r rows -> r < N -> top r = 0) ->
    forall c q n m, c < length (fe_cells f) -> q < nq -> n < fe_nn f -> m < fe_nn f ->
    JxW dim det f c q * (kappa (grad_at dim inv [f] 0 u c q) c q * part c q n m) = 0.
  Proof using WF WB TJ TS Hbs PU PE PB EB Ev U CO NO Hsg TSg HM.
    intros EQ NR. pose proof (ndofs K dim nq nfq det inv norm V W f vw ph vars bnd vj sj xv xs pb bs0 WF WB TJ TS Hbs PU PE PB EB) as En. rewrite Ev, Nat.mul_1_r in En.
    assert (VW : sg * virtual_work (pr_n pb) tops (get_res pb bs0 u) = 0).
    { unfold virtual_work. rewrite Sum_zero; [ring|]. intros i Hi. rewrite En in Hi. unfold tops. rewrite get_tab by exact Hi.
      destruct (in_dec Nat.eq_dec i rows) as [Hin|F]; [rewrite (NR i Hin Hi); ring|]. rewrite EQ; [ring|rewrite En; exact Hi|exact F]. }
    rewrite (work_terms K dim nq nfq det inv norm V W f vw ph vars bnd vj sj xv xs pb bs0 WF WB TJ TS Hbs PU PE PB EB) in VW.
    set (T1 := opt_term (ph_mass ph) _) in VW. set (T3 := sumf _ bnd) in VW. set (T2 := opt_term _ _) in VW.
    assert (P1 : le 0 (sg * T1)).
    { unfold T1. destruct (ph_mass ph) as [mm|] eqn:Em; cbn [opt_term]; [|match goal with |- le 0 ?x => replace x with (@c0 K) by ring end; apply (le_refl _ _ O)].
      unfold mass_volume, over_cells. rewrite <- Sum_mul_l. apply (Sum_nonneg K le O). intros c Hc. rewrite <- Sum_mul_l. apply (Sum_nonneg K le O). intros q Hq.
      cbn [fe_at nth]. rewrite Ev, one_dot1.
      match goal with |- le 0 (sg * (?j * (?x * ?y))) => replace (sg * (j * (x * y))) with (j * ((sg * x) * y)) by ring end.
      apply (le_mul _ _ O); [apply NO; assumption|]. apply (le_mul _ _ O); [apply (proj1 TSg mm c q Em Hc Hq)|apply field_tops; assumption]. }
    assert (P3 : le 0 (sg * T3)).
    { unfold T3. rewrite <- sumf_mul_l. apply sumf_nonneg. intros b Hb. destruct (bp_map (bd_ph b)) as [sm|] eqn:Es; cbn [opt_term]; [|match goal with |- le 0 ?x => replace x with (@c0 K) by ring end; apply (le_refl _ _ O)].
      unfold map_surface, over_faces. rewrite <- sumf_mul_l. apply sumf_nonneg. intros [[c e] w] Hin. cbn [fst snd]. rewrite <- Sum_mul_l. apply (Sum_nonneg K le O). intros q Hq.
      cbn [fe_at nth]. rewrite Ev, one_dot1. pose proof (in_combine_l _ _ _ _ Hin) as Hp.
      match goal with |- le 0 (sg * (?j * (?x * ?y))) => replace (sg * (j * (x * y))) with (j * ((sg * x) * y)) by ring end.
      destruct NO as (_ & _ & NN & _). apply (le_mul _ _ O); [apply (NN b (c, e) q Hb Hp Hq)|].
      apply (le_mul _ _ O); [apply (proj2 TSg b sm c e w q Hb Es Hin Hq)|apply (face_tops b (c, e) q Hb Hp Hq)]. }
    assert (E2 : sg * T2 = Sum (length (fe_cells f)) (fun c => Sum nq (fun q => Sum (fe_nn f) (fun n => Sum (fe_nn f) (fun m =>
        JxW dim det f c q * (kappa (grad_at dim inv [f] 0 u c q) c q * part c q n m)))))).
    { unfold T2. unfold conducts in CO. destruct (match ph_tensor ph with Some t => Some t | None => ph_energy_grad ph end) as [tm|]; [|contradiction].
      cbn [opt_term]. unfold tensor_volume, over_cells. rewrite <- Sum_mul_l. apply Sum_ext. intros c Hc. rewrite <- Sum_mul_l. apply Sum_ext. intros q Hq. cbn [fe_at nth]. rewrite Ev.
      set (G := grad_at dim inv [f] 0 u c q). destruct (CO G c q Hc Hq) as [_ CE].
      assert (ED : dot2 1 dim (tm G (vars c q)) (grad_at dim inv [f] 0 tops c q) = kappa G c q * Sum dim (fun d => get2 G 0 d * get2 (grad_at dim inv [f] 0 tops c q) 0 d)).
      { unfold dot2, Sum at 1. cbn [seq sumf]. rewrite <- Sum_mul_l. match goal with |- ?x + 0 = _ => transitivity x; [ring|] end. apply Sum_ext. intros d Hd. rewrite CE by exact Hd. ring. }
      rewrite ED. match goal with |- sg * (?j * (?k * ?s)) = _ => transitivity (j * (k * (sg * s))); [ring|] end. unfold G. rewrite flux by exact Hc.
      rewrite <- !Sum_mul_l. apply Sum_ext. intros n Hn. rewrite <- !Sum_mul_l. reflexivity. }
    assert (PP : forall c q n m, c < length (fe_cells f) -> q < nq -> n < fe_nn f -> m < fe_nn f -> le 0 (JxW dim det f c q * (kappa (grad_at dim inv [f] 0 u c q) c q * part c q n m))).
    { intros c q n m Hc Hq Hn Hm. apply (le_mul _ _ O); [apply NO; assumption|]. apply (le_mul _ _ O); [|apply part_nonneg; assumption].
      unfold conducts in CO. destruct (match ph_tensor ph with Some t => Some t | None => ph_energy_grad ph end) as [tm|]; [|contradiction]. apply CO; assumption. }
    assert (P2 : le 0 (sg * T2)).
    { rewrite E2. repeat (apply (Sum_nonneg K le O); intros). apply PP; assumption. }
    assert (Z : sg * T2 = 0).
    { apply (add_zero (sg * T2) (sg * T1 + sg * T3)); [exact P2|apply le0_add; assumption|]. rewrite <- VW. ring. }
    rewrite E2 in Z. intros c q n m Hc Hq Hn Hm.
    assert (L0 : forall x : K, x = 0 -> le x 0) by (intros x ->; apply (le_refl _ _ O)).
    pose proof (Sum_zero_each K le O _ _ (fun c Hc => Sum_nonneg K le O _ _ (fun q Hq => Sum_nonneg K le O _ _ (fun n Hn => Sum_nonneg K le O _ _ (fun m Hm => PP c q n m Hc Hq Hn Hm)))) (L0 _ Z) c Hc) as Z1. cbv beta in Z1.
    pose proof (Sum_zero_each K le O _ _ (fun q Hq => Sum_nonneg K le O _ _ (fun n Hn => Sum_nonneg K le O _ _ (fun m Hm => PP c q n m Hc Hq Hn Hm))) (L0 _ Z1) q Hq) as Z2. cbv beta in Z2.
    pose proof (Sum_zero_each K le O _ _ (fun n Hn => Sum_nonneg K le O _ _ (fun m Hm => PP c q n m Hc Hq Hn Hm)) (L0 _ Z2) n Hn) as Z3. cbv beta in Z3.
    exact (Sum_zero_each K le O _ _ (fun m Hm => PP c q n m Hc Hq Hn Hm) (L0 _ Z3) m Hm).
  Qed.
  Lemma spread rows a b : equilibrium (pr_n pb) rows (get_res pb bs0 u) -> (forall r, In r rows -> r < N -> top r = 0) ->
    clos_refl_trans nat (link dim nq det inv f kappa) a b -> a < N /\ sg * get u a = M -> b < N /\ sg * get u b = M.
  Proof using WF WB TJ TS Hbs PU PE PB EB Ev U CO NO Hsg TSg HM.
    intros EQ NR H. induction H as [x y (c & q & n & m & Hc & Hq & Hn & Hm & D & <- & <- & J0 & C0 & K0)|x|x y z _ IH1 _ IH2]; [|tauto|tauto].
    intros [Bn E]. split; [apply node_bound; assumption|]. pose proof (all_vanish rows EQ NR c q n m Hc Hq Hn Hm) as Z.
    destruct (td_domain _ _ TD _ _ Z) as [F|Z1]; [contradiction|]. destruct (td_domain _ _ TD _ _ Z1) as [F|Z2]; [destruct (K0 _ F)|].
    unfold part in Z2. assert (T1 : top (node_of f c n) = 1).
    { unfold top. destruct (td_dec _ _ TD M (sg * get u (node_of f c n))) as [_|[F _]]; [reflexivity|]. destruct F. rewrite E. apply (le_refl _ _ O). }
    rewrite T1 in Z2. assert (Z3 : (sg * get u (node_of f c m) - M) * coupling dim inv f c q m n = 0) by (rewrite <- Z2; ring).
    destruct (td_domain _ _ TD _ _ Z3) as [F|F].
    - apply (proj1 (sub_zero K _ _)). exact F.
    - destruct C0. rewrite <- F. unfold coupling. apply Sum_ext. intros d Hd. ring.
  Qed.
  End Problem.
End Proofs.

Lemma maximum_core (K : CRing) le (TD : total_domain le) dim nq nfq det inv norm (V W : Type) (f : fe K) vw (ph : physics K V) vars (bnd : list (bdata K W)) vj sj xv xs
    (pb : problem K (vinp K V) (finp K W)) bs0 kappa sg u B rows :
  wf_fes [f] -> (forall b, In b bnd -> wf_bdata [f] b) ->
  (forall u x, length (vj u x) = num_local [f] * num_local [f]) -> (forall u x, length (sj u x) = num_local [f] * num_local [f]) -> 0 < bs0 ->
  ph_universal ph = None -> ph_extra ph = None -> (forall b, In b bnd -> bp_universal (bd_ph b) = None) ->
  build dim nq nfq det inv norm [f] vw ph vars bnd vj sj xv xs = Some pb ->
  fe_vec f = 1 -> unity K dim f -> conducts le dim nq f ph vars kappa -> nonobtuse le dim nq nfq det inv norm f bnd ->
  supported dim nq det inv f kappa rows -> cmul sg sg = c1 -> terms_sign le dim nq nfq f ph vars bnd sg u ->
  equilibrium (pr_n pb) rows (get_res pb bs0 u) -> (forall r, In r rows -> r < length (fe_points f) -> le (cmul sg (get u r)) B) ->
  forall a, a < length (fe_points f) -> le (cmul sg (get u a)) B.
Proof.
  intros WF WB TJ TS Hbs PU PE PB EB Ev U CO NO SU Hsg TSg EQ HB a Ha.
  destruct (argmax K le TD (length (fe_points f)) (fun i => cmul sg (get u i)) ltac:(lia)) as (i & Hi & M).
  set (m := cmul sg (get u i)) in *. eapply (le_trans _ _ (td_order _ _ TD)); [apply (M a Ha)|].
  destruct (Exists_dec (fun r => r < length (fe_points f) /\ le m (cmul sg (get u r))) rows) as [E|E].
  { intros r. destruct (lt_dec r (length (fe_points f))) as [L|L]; [|right; tauto]. destruct (td_dec _ _ TD m (cmul sg (get u r))) as [L'|[L' _]]; [left; tauto|right; tauto]. }
  - apply Exists_exists in E. destruct E as (r & Hr & L & L'). eapply (le_trans _ _ (td_order _ _ TD)); [exact L'|apply HB; assumption].
  - exfalso. apply E. destruct (SU i Hi) as (r & Hr & CH).
    assert (NR : forall r, In r rows -> r < length (fe_points f) -> top K le TD sg u m r = c0).
    { intros r' Hr' L. unfold top. destruct (td_dec _ _ TD m (cmul sg (get u r'))) as [L'|_]; [|reflexivity]. destruct E. apply Exists_exists. exists r'. tauto. }
    destruct (spread K le TD dim nq nfq det inv norm V W f vw ph vars bnd vj sj xv xs pb bs0 WF WB TJ TS Hbs PU PE PB EB Ev U kappa CO NO sg Hsg u TSg m M rows i r EQ NR CH (conj Hi eq_refl)) as [L E'].
    apply Exists_exists. exists r. split; [exact Hr|]. split; [exact L|]. rewrite E'. apply (le_refl _ _ (td_order _ _ TD)).
Qed.

(** ** Theorems *)
(** If heat only leaves (at the computed temperatures), no node is hotter than the hottest prescribed temperature. *)
Theorem C124_upper :
  forall (K : CRing) le (TD : total_domain le) dim nq nfq det inv norm (V W : Type) (f : fe K) vw (ph : physics K V) vars (bnd : list (bdata K W)) vj sj xv xs
         (pb : problem K (vinp K V) (finp K W)) bs0 kappa u B rows,
  wf_fes [f] -> (forall b, In b bnd -> wf_bdata [f] b) ->
  (forall u x, length (vj u x) = num_local [f] * num_local [f]) -> (forall u x, length (sj u x) = num_local [f] * num_local [f]) -> 0 < bs0 ->
  ph_universal ph = None -> ph_extra ph = None -> (forall b, In b bnd -> bp_universal (bd_ph b) = None) ->
  build dim nq nfq det inv norm [f] vw ph vars bnd vj sj xv xs = Some pb ->
  fe_vec f = 1 -> unity K dim f -> conducts le dim nq f ph vars kappa -> nonobtuse le dim nq nfq det inv norm f bnd ->
  supported dim nq det inv f kappa rows -> terms_sign le dim nq nfq f ph vars bnd c1 u ->
  equilibrium (pr_n pb) rows (get_res pb bs0 u) -> (forall r, In r rows -> r < length (fe_points f) -> le (get u r) B) ->
  forall a, a < length (fe_points f) -> le (get u a) B.
Proof.
  intros K le TD dim nq nfq det inv norm V W f vw ph vars bnd vj sj xv xs pb bs0 kappa u B rows WF WB TJ TS Hbs PU PE PB EB Ev U CO NO SU TSg EQ HB a Ha.
  rewrite <- (Ring_theory.Rmul_1_l (cth K) (get u a)).
  eapply (maximum_core K le TD dim nq nfq det inv norm V W f vw ph vars bnd vj sj xv xs pb bs0 kappa c1 u B rows); try eassumption.
  - apply (Ring_theory.Rmul_1_l (cth K)).
  - intros r Hr L. rewrite (Ring_theory.Rmul_1_l (cth K)). apply HB; assumption.
Qed.
Print Assumptions C124_upper.

(** If heat only enters, no node is colder than the coldest prescribed temperature. *)
Theorem C124_lower :
  forall (K : CRing) le (TD : total_domain le) dim nq nfq det inv norm (V W : Type) (f : fe K) vw (ph : physics K V) vars (bnd : list (bdata K W)) vj sj xv xs
         (pb : problem K (vinp K V) (finp K W)) bs0 kappa u B rows,
  wf_fes [f] -> (forall b, In b bnd -> wf_bdata [f] b) ->
  (forall u x, length (vj u x) = num_local [f] * num_local [f]) -> (forall u x, length (sj u x) = num_local [f] * num_local [f]) -> 0 < bs0 ->
  ph_universal ph = None -> ph_extra ph = None -> (forall b, In b bnd -> bp_universal (bd_ph b) = None) ->
  build dim nq nfq det inv norm [f] vw ph vars bnd vj sj xv xs = Some pb ->
  fe_vec f = 1 -> unity K dim f -> conducts le dim nq f ph vars kappa -> nonobtuse le dim nq nfq det inv norm f bnd ->
  supported dim nq det inv f kappa rows -> terms_sign le dim nq nfq f ph vars bnd (copp c1) u ->
  equilibrium (pr_n pb) rows (get_res pb bs0 u) -> (forall r, In r rows -> r < length (fe_points f) -> le B (get u r)) ->
  forall a, a < length (fe_points f) -> le B (get u a).
Proof.
  intros K le TD dim nq nfq det inv norm V W f vw ph vars bnd vj sj xv xs pb bs0 kappa u B rows WF WB TJ TS Hbs PU PE PB EB Ev U CO NO SU TSg EQ HB a Ha.
  assert (FL : forall x y : K, le x y -> le (cmul (copp c1) y) (cmul (copp c1) x)) by (intros x y; apply (flip K le TD)).
  assert (BF : forall x y : K, le (cmul (copp c1) y) (cmul (copp c1) x) -> le x y) by (intros x y; apply (unflip K le TD)).
  apply BF.
  eapply (maximum_core K le TD dim nq nfq det inv norm V W f vw ph vars bnd vj sj xv xs pb bs0 kappa (copp c1) u (cmul (copp c1) B) rows); try eassumption.
  - apply sq_neg.
  - intros r Hr L. apply FL. apply HB; assumption.
Qed.
Print Assumptions C124_lower.

(** Without body and surface terms every temperature lies in the range of the prescribed ones. *)
Theorem C124_range :
  forall (K : CRing) le (TD : total_domain le) dim nq nfq det inv norm (V W : Type) (f : fe K) vw (ph : physics K V) vars vj sj xv xs
         (pb : problem K (vinp K V) (finp K W)) bs0 kappa u lo hi rows,
  wf_fes [f] ->
  (forall u x, length (vj u x) = num_local [f] * num_local [f]) -> (forall u x, length (sj u x) = num_local [f] * num_local [f]) -> 0 < bs0 ->
  ph_universal ph = None -> ph_extra ph = None -> ph_mass ph = None ->
  build dim nq nfq det inv norm [f] vw ph vars (@nil (bdata K W)) vj sj xv xs = Some pb ->
  fe_vec f = 1 -> unity K dim f -> conducts le dim nq f ph vars kappa -> nonobtuse le dim nq nfq det inv norm f (@nil (bdata K W)) ->
  supported dim nq det inv f kappa rows ->
  equilibrium (pr_n pb) rows (get_res pb bs0 u) -> (forall r, In r rows -> r < length (fe_points f) -> le lo (get u r) /\ le (get u r) hi) ->
  forall a, a < length (fe_points f) -> le lo (get u a) /\ le (get u a) hi.
Proof.
  intros K le TD dim nq nfq det inv norm V W f vw ph vars vj sj xv xs pb bs0 kappa u lo hi rows WF TJ TS Hbs PU PE PM EB Ev U CO NO SU EQ HB a Ha. split.
  - apply (C124_lower K le TD dim nq nfq det inv norm V W f vw ph vars nil vj sj xv xs pb bs0 kappa u lo rows); try assumption; try (intros b []).
    + split; [intros mm c q E; congruence|intros b sm c e w q []].
    + intros r Hr L. apply HB; assumption.
  - apply (C124_upper K le TD dim nq nfq det inv norm V W f vw ph vars nil vj sj xv xs pb bs0 kappa u hi rows); try assumption; try (intros b []).
    + split; [intros mm c q E; congruence|intros b sm c e w q []].
    + intros r Hr L. apply HB; assumption.
Qed.
Print Assumptions C124_range.

(** ** Concrete case: three bars of conductivities 1, 2, 1 in a row between the temperatures 0 and 10. *)
Lemma Z_domain : total_domain (K := ZK) Z.le.
Proof.
  constructor; [exact Z_ordered| |].
  - intros a b. destruct (Z_le_dec a b) as [L|L]; [left; exact L|right; split; [exact L|cbn in *; lia]].
  - intros a b E. cbn in *. apply Z.mul_eq_0. exact E.
Qed.
Definition mp_fe : fe ZK :=
  @Build_fe ZK 1 2 [[0]; [1]; [2]; [3]]%Z [[0; 1]; [1; 2]; [2; 3]] (fun _ n => if n =? 0 then 1%Z else 0%Z) (fun _ n _ => if n =? 0 then (-1)%Z else 1%Z) (fun _ => 1%Z)
    (fun g _ n => if n =? (if g =? 0 then 0 else 1) then 1%Z else 0%Z) (fun _ _ n _ => if n =? 0 then (-1)%Z else 1%Z) (fun _ _ => 1%Z) (fun _ _ => 1%Z).
Definition mp_tm : tensor_map ZK Z := fun G y => [[(y * get2 (K := ZK) G 0 0)%Z]].
Definition mp_ph : physics ZK Z := Build_physics ZK Z None None None (Some mp_tm) None None.
Definition mp_vars (c q : nat) : Z := nth c [1; 2; 1]%Z 0%Z.
Definition mp_det (m : list (list Z)) : Z := get2 (K := ZK) m 0 0.
Definition mp_inv (m : list (list Z)) : list (list Z) := m.
Definition mp_build :=
  build (K := ZK) 1 1 1 mp_det mp_inv (fun _ => 1%Z) [mp_fe] FULL mp_ph mp_vars (@nil (bdata ZK Z)) (fun _ _ => [0; 0; 0; 0]%Z) (fun _ _ => [0; 0; 0; 0]%Z)
    (vinp_of 1 mp_det mp_inv [mp_fe] (fun c q => 0%Z) 0) (finp_of 1 mp_det mp_inv (fun _ => 1%Z) [mp_fe] (fun _ => 0%Z) (0, 0)).
Example C124_example : exists pb, mp_build = Some pb /\ wf_fes [mp_fe] /\ unity ZK 1 mp_fe /\
  conducts (K := ZK) Z.le 1 1 mp_fe mp_ph mp_vars (fun _ c q => mp_vars c q) /\ nonobtuse (K := ZK) Z.le 1 1 1 mp_det mp_inv (fun _ => 1%Z) mp_fe (@nil (bdata ZK Z)) /\
  supported (K := ZK) 1 1 mp_det mp_inv mp_fe (fun _ c q => mp_vars c q) [0; 3] /\
  equilibrium (K := ZK) (pr_n pb) [0; 3] (get_res pb 1 [0; 4; 6; 10]%Z) /\ get_res pb 1 [0; 4; 6; 10]%Z = [-4; 0; 0; 4]%Z.
Proof.
  eexists. split; [exact (eq_refl mp_build : mp_build = Some _)|].
  split. { intros f [<-|[]]. split; [reflexivity|]. intros c [<-|[<-|[<-|[]]]]; (split; [reflexivity|]); cbn; intros n Hn; lia. }
  split. { intros q d. repeat split. }
  assert (MV : forall c q, (0 <= mp_vars c q)%Z) by (intros c q; unfold mp_vars; do 3 (destruct c as [|c]; [cbn; lia|]); destruct c; cbn; lia).
  split. { intros G c q Hc Hq. split; [apply MV|]. intros d Hd. assert (d = 0) as -> by lia. reflexivity. }
  split. { split; [|split; [|split; [|split]]].
    - intros c q Hc Hq. change (length (fe_cells mp_fe)) with 3 in Hc. destruct c as [|[|[|c]]]; try lia; vm_compute; discriminate.
    - intros q n Hq Hn. destruct n as [|n]; vm_compute; discriminate.
    - intros b p q [].
    - intros b p q n [].
    - intros c q n m Hc Hq Hn Hm D. change (length (fe_cells mp_fe)) with 3 in Hc. change (fe_nn mp_fe) with 2 in *.
      destruct c as [|[|[|c]]]; try lia; destruct n as [|[|n]]; try lia; destruct m as [|[|m]]; try lia; vm_compute; discriminate. }
  split.
  { assert (L : forall a, a < 3 -> link (K := ZK) 1 1 mp_det mp_inv mp_fe (fun _ c q => mp_vars c q) (S a) a).
    { intros a Ha. exists a, 0, 1, 0. change (length (fe_cells mp_fe)) with 3. change (fe_nn mp_fe) with 2.
      destruct a as [|[|[|a]]]; try lia; repeat split; try lia; try (vm_compute; discriminate); intros _; vm_compute; discriminate. }
    intros a Ha. exists 0. split; [left; reflexivity|]. change (a < 4) in Ha.
    destruct a as [|[|[|[|a]]]]; try lia.
    - apply rt_refl.
    - apply rt_step. apply L. lia.
    - eapply rt_trans; apply rt_step; [apply L; lia|apply L; lia].
    - eapply rt_trans; [apply rt_step; apply L; lia|]. eapply rt_trans; apply rt_step; [apply L; lia|apply L; lia]. }
  split; [|vm_compute; reflexivity].
  intros i Hi Hn. change (i < 4) in Hi. destruct i as [|[|[|[|i]]]]; try lia; try (destruct Hn; cbn; tauto); vm_compute; reflexivity.
Qed.
