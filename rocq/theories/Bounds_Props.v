(** C123: bounds on the homogenized stiffness. *)
From Coq Require Import List Arith Lia ZArith QArith Qcanon ZifyBool ZifyNat.
Local Close Scope Qc_scope. Local Close Scope Q_scope. Local Open Scope nat_scope.
From Verif Require Import Base Csr_Model Assembly_Model Dof_Model Dof_Spec Bc_Model Reduced_Model Reduced_Spec Pbc_Spec Kernel_Model Kernel_Spec Kernel_Proofs Kernel_Props
     Homog_Model Homog_Spec Homog_Props Potential_Props.
Import ListNotations.

(** ** Specification *)
Section Spec.
  Variable K : CRing.
  Local Open Scope ring_K.
  (** The strain tensor with Voigt components [w] (shear components are twice the tensor entries). *)
  Definition voigt_strain (half : K) (dim : nat) (w : nat -> K) : list (list K) :=
    if (dim =? 2)%nat then [[w 0%nat; half * w 2%nat]; [half * w 2%nat; w 1%nat]]
    else [[w 0%nat; half * w 5%nat; half * w 4%nat]; [half * w 5%nat; w 1%nat; half * w 3%nat]; [half * w 4%nat; half * w 3%nat; w 2%nat]].
  (** Twice the energy density of the homogenized medium under the strain [w]. *)
  Definition voigt_energy (dim : nat) (H : list (list K)) (w : nat -> K) : K :=
    Sum (length (voigt_pairs dim)) (fun j => Sum (length (voigt_pairs dim)) (fun k => w j * get2 H j k * w k)).
  (** Twice the energy density of the material at one point under the gradient [G]. *)
  Definition density {V : Type} (dim : nat) (tm : tensor_map K V) (y : V) (G : list (list K)) : K :=
    Sum dim (fun i => Sum dim (fun d => get2 (tm G y) i d * get2 G i d)).
  (** Average over the cell. *)
  Definition cell_average (kinv : K -> K) (dim nq : nat) (det : list (list K) -> K) (f : fe K) (g : nat -> nat -> K) : K :=
    Sum (length (fe_cells f)) (fun c => Sum nq (fun q => JxW dim det f c q * g c q)) * kinv (total_volume dim nq det f).
  (** Positive weights and volume. *)
  Definition positive_cell (le : K -> K -> Prop) (kinv : K -> K) (dim nq : nat) (det : list (list K) -> K) (f : fe K) : Prop :=
    ordered le /\ (forall c q, c < length (fe_cells f) -> q < nq -> le 0 (JxW dim det f c q)) /\ le 0 (kinv (total_volume dim nq det f)).
  (** Some field whose deviation from the affine field of the strain [w] agrees on periodic images. *)
  Definition admissible (half : K) (dim : nat) (f : fe K) (col : nat -> nat) (w : nat -> K) (v : list K) : Prop :=
    let E := voigt_strain half dim w in
    forall p p' i i', p < length (fe_points f) -> p' < length (fe_points f) -> i < dim -> i' < dim -> col (p * dim + i)%nat = col (p' * dim + i')%nat ->
      get v (p * dim + i) - Sum dim (fun j => get2 E i j * get2 (fe_points f) p j) = get v (p' * dim + i') - Sum dim (fun j => get2 E i' j * get2 (fe_points f) p' j).
End Spec.
Arguments voigt_strain {K}. Arguments voigt_energy {K}. Arguments density {K V}. Arguments cell_average {K}. Arguments positive_cell {K}. Arguments admissible {K}.

Section Cell.
  Variable K : CRing.
  Add Ring KRb : (cth K).
  Local Open Scope ring_K.
  Variable le : K -> K -> Prop.
  Variables (dim nq : nat).
  Variable det : list (list K) -> K.
  Variable inv : list (list K) -> list (list K).
  Variable norm : list K -> K.
  Variable half : K.
  Variable kinv : K -> K.
  Variable f : fe K.
  Hypothesis SC : sound_cell dim nq half kinv det inv f.
  Hypothesis PC : positive_cell le kinv dim nq det f.
  Local Notation m := (length (voigt_pairs dim)).
  Local Notation vol := (total_volume dim nq det f).
  Local Notation us k := (nth k (unit_strains half dim) []).

  Lemma strain_combo w i j : i < dim -> j < dim -> get2 (voigt_strain half dim w) i j = Sum m (fun k => w k * get2 (us k) i j).
  Proof using SC.
    destruct SC as ([E|E] & _); rewrite E; intros Hi Hj.
    - destruct i as [|[|i]]; try lia; destruct j as [|[|j]]; try lia; cbn; ring.
    - destruct i as [|[|[|i]]]; try lia; destruct j as [|[|[|j]]]; try lia; cbn; ring.
  Qed.
  Definition umw w := macro_displacement (fe_points f) dim (voigt_strain half dim w).
  Lemma umw_combo w p i : p < length (fe_points f) -> i < dim ->
    get (umw w) (p * dim + i) = Sum m (fun k => w k * get (macro_displacement (fe_points f) dim (us k)) (p * dim + i)).
  Proof using SC.
    intros Hp Hi. unfold umw. rewrite (macro_get K dim nq det inv half kinv f SC) by assumption.
    rewrite (Sum_ext K _ _ (fun j => Sum m (fun k => w k * (get2 (us k) i j * get2 (fe_points f) p j)))).
    - rewrite Sum_swap. apply Sum_ext. intros k Hk. rewrite Sum_mul_l. f_equal. symmetry. apply (macro_get K dim nq det inv half kinv f SC); assumption.
    - intros j Hj. rewrite strain_combo by assumption. rewrite <- Sum_mul_r. apply Sum_ext. intros k Hk. ring.
  Qed.
  Lemma dof_split i : i < length (fe_points f) * dim -> exists p k, p < length (fe_points f) /\ k < dim /\ i = (p * dim + k)%nat.
  Proof using.
    intros H. destruct (Nat.eq_dec dim 0) as [E|E]; [rewrite E in H; lia|].
    exists (i / dim)%nat, (i mod dim)%nat. split; [|split].
    - apply Nat.div_lt_upper_bound; lia.
    - apply Nat.mod_upper_bound. exact E.
    - rewrite Nat.mul_comm. apply Nat.div_mod. exact E.
  Qed.
  Lemma le_avg x y : le (vol * x) y -> le x (y * kinv vol).
  Proof using SC PC.
    destruct PC as (O & _ & Hk). destruct SC as (_ & _ & _ & _ & _ & HV & _). intros H.
    replace x with (kinv vol * (vol * x)) by (transitivity (vol * kinv vol * x); [ring|rewrite HV; ring]).
    replace (y * kinv vol) with (kinv vol * y) by ring. apply (le_mul_l K le O); assumption.
  Qed.

  Section Mat.
  Variables (nfq : nat) (V W : Type).
  Variable vw : view.
  Variable ph : physics K V.
  Variable tm : tensor_map K V.
  Hypothesis SO : stress_only ph tm.
  Variable vars : nat -> nat -> V.
  Variable vj : list K -> vinp K V -> list K.
  Variable sj : list K -> finp K W -> list K.
  Variable xv : vinp K V.
  Variable xs : finp K W.
  Hypothesis TJ : forall u x, length (vj u x) = (num_local [f] * num_local [f])%nat.
  Hypothesis TS : forall u x, length (sj u x) = (num_local [f] * num_local [f])%nat.
  Variable pb : problem K (vinp K V) (finp K W).
  Hypothesis EB : build dim nq nfq det inv norm [f] vw ph vars (@nil (bdata K W)) vj sj xv xs = Some pb.
  Variable bs0 : nat.
  Hypothesis Hbs : 0 < bs0.
  Variable C : V -> nat -> nat -> nat -> nat -> K.
  Hypothesis LS : linear_stress dim tm C.
  Hypothesis SS : stress_symmetric dim C.
  Hypothesis MS : major_symmetric dim C.
  Variable col : nat -> nat.
  Variable cases : list (list K * list K).
  Hypothesis HR : responses dim half pb bs0 col (fe_points f) cases.
  Local Notation n := (length (fe_points f) * dim)%nat.
  Local Notation a u v := (tensor_volume dim nq det inv [f] tm vars u v).
  Local Notation H := (h_C (hom_of_cases kinv dim nq det inv f tm vars cases)).
  Local Notation u k := (fst (nth k cases ([], []))).

  Lemma En : pr_n pb = n. Proof using SC EB. apply (hom_n K dim nq det inv norm half kinv f SC nfq V W vw ph vars vj sj xv xs pb EB). Qed.
  Lemma a_work x v : a x v = Sum n (fun i => get v i * get (get_res pb bs0 x) i).
  Proof using SC SO TJ TS EB Hbs.
    rewrite <- En. symmetry. exact (work_is_a K dim nq det inv norm half kinv f SC nfq V W vw ph tm SO vars vj sj xv xs TJ TS pb EB bs0 Hbs x v).
  Qed.
  Lemma a_sym x v : a x v = a v x.
  Proof using SC LS MS. apply (a_symmetric K dim nq det inv half kinv f SC V tm vars C LS _ _ MS). Qed.
  Lemma a_right x v mm (w : nat -> K) (vs : nat -> list K) : (forall i, i < n -> get v i = Sum mm (fun k => w k * get (vs k) i)) ->
    a x v = Sum mm (fun k => w k * a x (vs k)).
  Proof using SC SO TJ TS EB Hbs.
    intros E. rewrite a_work. rewrite (Sum_ext K _ _ (fun i => Sum mm (fun k => w k * (get (vs k) i * get (get_res pb bs0 x) i)))).
    - rewrite Sum_swap. apply Sum_ext. intros k Hk. rewrite Sum_mul_l, a_work. reflexivity.
    - intros i Hi. rewrite E by exact Hi. rewrite <- Sum_mul_r. apply Sum_ext. intros k Hk. ring.
  Qed.
  Lemma a_right_add x v v1 v2 : (forall i, i < n -> get v i = get v1 i + get v2 i) -> a x v = a x v1 + a x v2.
  Proof using SC SO TJ TS EB Hbs.
    intros E. rewrite !a_work, <- Sum_add. apply Sum_ext. intros i Hi. rewrite E by exact Hi. ring.
  Qed.
  Lemma Lc : length cases = m.
  Proof using SC HR. rewrite (proj1 HR). apply (strains_length K dim nq det inv half kinv f SC). Qed.
  Definition combo (w : nat -> K) : list K := tab n (fun i => Sum m (fun k => w k * get (u k) i)).
  Lemma combo_get w i : i < n -> get (combo w) i = Sum m (fun k => w k * get (u k) i).
  Proof using. intros Hi. unfold combo. apply get_tab. exact Hi. Qed.
  Lemma energy_eq w : vol * voigt_energy dim H w = a (combo w) (combo w).
  Proof using SC SO TJ TS EB Hbs LS SS MS HR.
    rewrite (a_right _ _ m w (fun k => u k)) by (intros i Hi; apply combo_get; exact Hi). unfold voigt_energy.
    rewrite <- Sum_mul_l. apply Sum_ext. intros j Hj. rewrite a_sym.
    rewrite (a_right _ _ m w (fun k => u k)) by (intros i Hi; apply combo_get; exact Hi).
    rewrite <- !Sum_mul_l. apply Sum_ext. intros k Hk.
    destruct (C65_hill_mandel K dim nq nfq det inv norm half kinv V W f vw ph tm vars vj sj xv xs pb bs0 C col cases j k SC SO TJ TS EB Hbs LS SS HR
                ltac:(rewrite Lc; exact Hj) ltac:(rewrite Lc; exact Hk)) as [_ E]. cbv zeta in E.
    rewrite (a_sym (u j) (u k)). rewrite <- E. ring.
  Qed.
  Lemma periodic_zero w z : (forall i j, i < n -> j < n -> col i = col j -> get z i = get z j) -> a (combo w) z = 0.
  Proof using SC SO TJ TS EB Hbs LS MS HR.
    intros Hz. rewrite a_sym. rewrite (a_right _ _ m w (fun k => u k)) by (intros i Hi; apply combo_get; exact Hi).
    apply Sum_zero. intros k Hk. rewrite a_sym. rewrite a_work.
    pose proof (proj2 (proj2 HR k ltac:(rewrite Lc; exact Hk))) as B. rewrite En in B.
    assert (X : virtual_work n z (get_res pb bs0 (u k)) = 0) by (apply (periodic_work K n col); [exact Hz|intros i Hi; right; apply B; exact Hi]).
    unfold virtual_work in X. rewrite X. ring.
  Qed.
  Lemma admissible_iff w v : admissible half dim f col w v -> forall i j, i < n -> j < n -> col i = col j -> get v i - get (umw w) i = get v j - get (umw w) j.
  Proof using SC.
    intros A i j Hi Hj E. destruct (dof_split i Hi) as (p & k & Hp & Hk & ->). destruct (dof_split j Hj) as (p' & k' & Hp' & Hk' & ->).
    unfold umw. rewrite !(macro_get K dim nq det inv half kinv f SC) by assumption. apply A; assumption.
  Qed.
  Lemma umw_get w i : i < n -> get (umw w) i = Sum m (fun k => w k * get (macro_displacement (fe_points f) dim (us k)) i).
  Proof using SC. intros Hi. destruct (dof_split i Hi) as (p & k & Hp & Hk & ->). apply umw_combo; assumption. Qed.
  Lemma combo_periodic w i j : i < n -> j < n -> col i = col j -> get (combo w) i - get (umw w) i = get (combo w) j - get (umw w) j.
  Proof using SC EB HR.
    intros Hi Hj E. rewrite !combo_get, !umw_get by assumption. rewrite <- !Sum_sub. apply Sum_ext. intros k Hk.
    pose proof (proj1 (proj2 HR k ltac:(rewrite Lc; exact Hk)) i j ltac:(rewrite En; exact Hi) ltac:(rewrite En; exact Hj) E) as P.
    match goal with |- ?w * ?x - ?w * ?y = ?w * ?x' - ?w * ?y' => transitivity (w * (x - y)); [ring|rewrite P; ring] end.
  Qed.
  Hypothesis PSD : forall c q G, c < length (fe_cells f) -> q < nq -> le 0 (density dim tm (vars c q) G).
  Lemma a_density x : a x x = Sum (length (fe_cells f)) (fun c => Sum nq (fun q => JxW dim det f c q * density dim tm (vars c q) (grad_at dim inv [f] 0 x c q))).
  Proof using SC. destruct SC as (_ & Ev & _). unfold tensor_volume, over_cells, density, dot2. cbn [fe_at nth]. rewrite Ev. reflexivity. Qed.
  Lemma a_nonneg x : le 0 (a x x).
  Proof using SC PC PSD.
    rewrite a_density. destruct PC as (O & J & _). apply (Sum_nonneg K le O). intros c Hc. apply (Sum_nonneg K le O). intros q Hq.
    apply (le_mul K le O); [apply J; assumption|apply PSD; assumption].
  Qed.
  Lemma minimum w v : admissible half dim f col w v -> le (a (combo w) (combo w)) (a v v).
  Proof using SC PC SO TJ TS EB Hbs LS MS HR PSD.
    intros A. pose proof (admissible_iff w v A) as Av. set (z := tab n (fun i => get v i - get (combo w) i)).
    assert (Ez : forall i, i < n -> get v i = get (combo w) i + get z i) by (intros i Hi; unfold z; rewrite get_tab by exact Hi; ring).
    assert (Pz : forall i j, i < n -> j < n -> col i = col j -> get z i = get z j).
    { intros i j Hi Hj E. unfold z. rewrite !get_tab by assumption. pose proof (Av i j Hi Hj E) as E1. pose proof (combo_periodic w i j Hi Hj E) as E2.
      match goal with |- ?p - ?q = _ => transitivity ((p - get (umw w) i) - (q - get (umw w) i)); [ring|rewrite E1, E2; ring] end. }
    rewrite (a_right_add v v _ _ Ez), (a_sym v (combo w)), (a_sym v z), (a_right_add (combo w) v _ _ Ez), (a_right_add z v _ _ Ez).
    rewrite (a_sym z (combo w)), (periodic_zero w z Pz). destruct PC as (O & _).
    match goal with |- le ?x _ => replace x with (x + 0 + (0 + 0)) at 1 by ring end.
    apply (le_add K le O); [apply (le_refl K le O)|]. apply (le_add K le O); [apply (le_refl K le O)|apply a_nonneg].
  Qed.
  End Mat.
End Cell.

(** [cases] are periodic responses, to the unit strains, of the assembled residual of a unit cell whose only term is the linear stress [tm]
    with moduli [C], and [H] is the stiffness that the solver builds from them. *)
Definition homogenized {K : CRing} (dim nq : nat) (det : list (list K) -> K) (inv : list (list K) -> list (list K)) (half : K) (kinv : K -> K) (f : fe K) (col : nat -> nat)
    {V : Type} (tm : tensor_map K V) (vars : nat -> nat -> V) (H : list (list K)) : Prop :=
  exists (W : Type) nfq norm vw (ph : physics K V) vj sj xv xs (pb : problem K (vinp K V) (finp K W)) bs0 C cases,
    stress_only ph tm /\ (forall u x, length (vj u x) = num_local [f] * num_local [f]) /\ (forall u x, length (sj u x) = num_local [f] * num_local [f]) /\
    build dim nq nfq det inv norm [f] vw ph vars (@nil (bdata K W)) vj sj xv xs = Some pb /\ 0 < bs0 /\
    linear_stress dim tm C /\ stress_symmetric dim C /\ major_symmetric dim C /\ responses dim half pb bs0 col (fe_points f) cases /\
    H = h_C (hom_of_cases kinv dim nq det inv f tm vars cases).

(** The homogenized energy is attained by an admissible field, and no admissible field has less. *)
Theorem C123_minimum :
  forall (K : CRing) le dim nq det inv half kinv (f : fe K) col (V : Type) (tm : tensor_map K V) vars H (w : nat -> K),
  sound_cell dim nq half kinv det inv f -> positive_cell le kinv dim nq det f ->
  (forall c q G, c < length (fe_cells f) -> q < nq -> le c0 (density dim tm (vars c q) G)) ->
  homogenized dim nq det inv half kinv f col tm vars H ->
  let mean v := cell_average kinv dim nq det f (fun c q => density dim tm (vars c q) (grad_at dim inv [f] 0 v c q)) in
  (exists u, admissible half dim f col w u /\ voigt_energy dim H w = mean u) /\
  (forall v, admissible half dim f col w v -> le (voigt_energy dim H w) (mean v)).
Proof.
  intros K le dim nq det inv half kinv f col V tm vars H w SC PC PSD (W & nfq & norm & vw & ph & vj & sj & xv & xs & pb & bs0 & C & cases & SO & TJ & TS & EB & Hbs & LS & SS & MS & HR & ->) mean.
  pose proof (energy_eq K dim nq det inv norm half kinv f SC nfq V W vw ph tm SO vars vj sj xv xs TJ TS pb EB bs0 Hbs C LS SS MS col cases HR w) as EE.
  split.
  - exists (combo K dim f cases w). split.
    + intros p p' i i' Hp Hp' Hi Hi' E. pose proof (combo_periodic K dim nq det inv norm half kinv f SC nfq V W vw ph vars vj sj xv xs pb EB bs0 col cases HR w (p * dim + i) (p' * dim + i') ltac:(nia) ltac:(nia) E) as P.
      unfold umw in P. rewrite !(macro_get K dim nq det inv half kinv f SC) in P by assumption. exact P.
    + apply (vol_cancel K dim nq det inv half kinv f SC). rewrite EE. unfold mean, cell_average.
      rewrite (a_density K dim nq det inv half kinv f SC). destruct SC as (_ & _ & _ & _ & _ & HV & _).
      match goal with |- ?x = cmul ?v (cmul ?x ?k) => generalize x; intro y; transitivity (cmul (cmul v k) y); [rewrite HV; apply (Ring_theory.Rmul_1_l (cth K)) || (symmetry; apply (Ring_theory.Rmul_1_l (cth K)))|] end.
      rewrite <- (Ring_theory.Rmul_assoc (cth K)). f_equal. apply (Ring_theory.Rmul_comm (cth K)).
  - intros v A. apply (le_avg K le dim nq det inv half kinv f SC PC). rewrite EE. rewrite <- (a_density K dim nq det inv half kinv f SC).
    exact (minimum K le dim nq det inv norm half kinv f SC PC nfq V W vw ph tm SO vars vj sj xv xs TJ TS pb EB bs0 Hbs C LS MS col cases HR PSD w v A).
Qed.
Print Assumptions C123_minimum.

Section Bnd.
  Variable K : CRing.
  Add Ring KRb2 : (cth K).
  Local Open Scope ring_K.
  Variable le : K -> K -> Prop.
  Variables (dim nq : nat) (det : list (list K) -> K) (inv : list (list K) -> list (list K)) (half : K) (kinv : K -> K) (f : fe K).
  Hypothesis SC : sound_cell dim nq half kinv det inv f.
  Hypothesis PC : positive_cell le kinv dim nq det f.
  Lemma avg_le g h : (forall c q, c < length (fe_cells f) -> q < nq -> le (g c q) (h c q)) -> le (cell_average kinv dim nq det f g) (cell_average kinv dim nq det f h).
  Proof using PC.
    destruct PC as (O & J & Hk). intros L. unfold cell_average.
    match goal with |- le (?x * ?k) (?y * _) => replace (x * k) with (k * x) by ring; replace (y * k) with (k * y) by ring end.
    apply (le_mul_l K le O); [exact Hk|]. apply (Sum_le K le O). intros c Hc. apply (Sum_le K le O). intros q Hq. apply (le_mul_l K le O); [apply J|apply L]; assumption.
  Qed.
  Lemma avg_ext g h : (forall c q, c < length (fe_cells f) -> q < nq -> g c q = h c q) -> cell_average kinv dim nq det f g = cell_average kinv dim nq det f h.
  Proof using. intros L. unfold cell_average. f_equal. apply Sum_ext. intros c Hc. apply Sum_ext. intros q Hq. rewrite L by assumption. reflexivity. Qed.
  Lemma avg_add g h : cell_average kinv dim nq det f (fun c q => g c q + h c q) = cell_average kinv dim nq det f g + cell_average kinv dim nq det f h.
  Proof using.
    unfold cell_average. match goal with |- _ = ?x * ?k + ?y * ?k => transitivity ((x + y) * k); [|ring] end. f_equal. rewrite <- Sum_add. apply Sum_ext. intros c Hc.
    rewrite <- Sum_add. apply Sum_ext. intros q Hq. ring.
  Qed.
  Lemma avg_const x : cell_average kinv dim nq det f (fun _ _ => x) = x.
  Proof using SC.
    destruct SC as (_ & _ & _ & _ & _ & HV & _). unfold cell_average.
    rewrite (Sum_ext K _ _ (fun c => Sum nq (fun q => JxW dim det f c q) * x)) by (intros c Hc; apply Sum_mul_r). rewrite Sum_mul_r. fold (total_volume dim nq det f).
    transitivity (total_volume dim nq det f * kinv (total_volume dim nq det f) * x); [ring|rewrite HV; ring].
  Qed.
  Lemma avg_sum mm (g : nat -> nat -> nat -> K) : cell_average kinv dim nq det f (fun c q => Sum mm (fun i => g i c q)) = Sum mm (fun i => cell_average kinv dim nq det f (g i)).
  Proof using.
    unfold cell_average. rewrite Sum_mul_r. f_equal. symmetry. etransitivity; [apply Sum_swap|]. apply Sum_ext. intros c Hc. etransitivity; [apply Sum_swap|]. apply Sum_ext. intros q Hq.
    rewrite Sum_mul_l. reflexivity.
  Qed.
  Lemma avg_mul x g : cell_average kinv dim nq det f (fun c q => x * g c q) = x * cell_average kinv dim nq det f g.
  Proof using.
    unfold cell_average. match goal with |- _ = ?x * (?s * ?k) => transitivity (x * s * k); [|ring] end. f_equal. rewrite <- Sum_mul_l. apply Sum_ext. intros c Hc.
    rewrite <- Sum_mul_l. apply Sum_ext. intros q Hq. ring.
  Qed.
  Lemma density_ext (V : Type) (tm : tensor_map K V) C y G G' : linear_stress dim tm C -> (forall i d, i < dim -> d < dim -> get2 G i d = get2 G' i d) -> density dim tm y G = density dim tm y G'.
  Proof using.
    intros LS E. unfold density. apply Sum_ext. intros i Hi. apply Sum_ext. intros d Hd. rewrite !LS, (E i d) by assumption. f_equal.
    apply Sum_ext. intros k Hk. apply Sum_ext. intros e He. rewrite (E k e) by assumption. reflexivity.
  Qed.
  (** The mean gradient of an admissible field is the macroscopic strain. *)
  Lemma mean_gradient col w u i d : periodic_gradients_vanish dim nq det inv f (length (fe_points f) * dim) col -> admissible half dim f col w u -> i < dim -> d < dim ->
    cell_average kinv dim nq det f (fun c q => get2 (grad_at dim inv [f] 0 u c q) i d) = get2 (voigt_strain half dim w) i d.
  Proof using SC.
    intros PG A Hi Hd. destruct SC as (_ & Ev & WF & _). pose proof (admissible_iff K dim nq det inv half kinv f SC col w u A) as P.
    assert (Z := PG (vdiff K f u (umw K dim half f w))).
    rewrite (avg_ext _ (fun c q => get2 (grad_at dim inv [f] 0 (vdiff K f u (umw K dim half f w)) c q) i d + get2 (voigt_strain half dim w) i d)).
    - rewrite avg_add, avg_const. unfold cell_average. rewrite Z; [ring| |exact Hi|exact Hd].
      intros k j Hk Hj E. unfold vdiff. rewrite Ev. rewrite !get_tab by assumption. apply P; assumption.
    - intros c q Hc Hq. rewrite (grad_vdiff K dim inv f WF) by exact Hc. unfold sub2. rewrite Ev. rewrite (get2_tab K dim dim) by assumption.
      unfold umw at 1. rewrite (macro_grad K dim nq det inv half kinv f SC) by assumption. ring.
  Qed.
  Lemma sum_zero_sub (x y : K) : x = y -> x - y = 0. Proof using. intros ->. ring. Qed.
End Bnd.

(** The homogenized stiffness is positive semidefinite. *)
Theorem C123_semidefinite :
  forall (K : CRing) le dim nq det inv half kinv (f : fe K) col (V : Type) (tm : tensor_map K V) vars H (w : nat -> K),
  sound_cell dim nq half kinv det inv f -> positive_cell le kinv dim nq det f ->
  (forall c q G, c < length (fe_cells f) -> q < nq -> le c0 (density dim tm (vars c q) G)) ->
  homogenized dim nq det inv half kinv f col tm vars H -> le c0 (voigt_energy dim H w).
Proof.
  intros K le dim nq det inv half kinv f col V tm vars H w SC PC PSD HH.
  destruct (C123_minimum K le dim nq det inv half kinv f col V tm vars H w SC PC PSD HH) as [(u & A & ->) _].
  rewrite <- (avg_const K dim nq det inv half kinv f SC c0). apply (avg_le K le dim nq det kinv f PC). intros c q Hc Hq. apply PSD; assumption.
Qed.
Print Assumptions C123_semidefinite.

(** Voigt's bound: the homogenized medium is not stiffer than the average of the material's stiffness. *)
Theorem C123_voigt :
  forall (K : CRing) le dim nq det inv half kinv (f : fe K) col (V : Type) (tm : tensor_map K V) vars H (w : nat -> K),
  sound_cell dim nq half kinv det inv f -> positive_cell le kinv dim nq det f ->
  (forall c q G, c < length (fe_cells f) -> q < nq -> le c0 (density dim tm (vars c q) G)) ->
  homogenized dim nq det inv half kinv f col tm vars H ->
  le (voigt_energy dim H w) (cell_average kinv dim nq det f (fun c q => density dim tm (vars c q) (voigt_strain half dim w))).
Proof.
  intros K le dim nq det inv half kinv f col V tm vars H w SC PC PSD HH.
  destruct (C123_minimum K le dim nq det inv half kinv f col V tm vars H w SC PC PSD HH) as [_ M].
  assert (E : cell_average kinv dim nq det f (fun c q => density dim tm (vars c q) (voigt_strain half dim w)) =
              cell_average kinv dim nq det f (fun c q => density dim tm (vars c q) (grad_at dim inv [f] 0 (umw K dim half f w) c q))).
  { destruct HH as (W & nfq & norm & vw & ph & vj & sj & xv & xs & pb & bs0 & C & cases & SO & TJ & TS & EB & Hbs & LS & _).
    apply avg_ext. intros c q Hc Hq. apply (density_ext K dim V tm C _ _ _ LS). intros i d Hi Hd. symmetry. apply (macro_grad K dim nq det inv half kinv f SC); assumption. }
  rewrite E. apply M. intros p p' i i' Hp Hp' Hi Hi' _. unfold umw. rewrite !(macro_get K dim nq det inv half kinv f SC) by assumption.
  rewrite !(sum_zero_sub K _ _ eq_refl). reflexivity.
Qed.
Print Assumptions C123_voigt.

(** Stiffening the material anywhere in the cell cannot soften the homogenized medium. *)
Theorem C123_monotone :
  forall (K : CRing) le dim nq det inv half kinv (f : fe K) col (V V' : Type) (tm : tensor_map K V) (tm' : tensor_map K V') vars vars' H H' (w : nat -> K),
  sound_cell dim nq half kinv det inv f -> positive_cell le kinv dim nq det f ->
  (forall c q G, c < length (fe_cells f) -> q < nq -> le c0 (density dim tm (vars c q) G)) ->
  (forall c q G, c < length (fe_cells f) -> q < nq -> le (density dim tm (vars c q) G) (density dim tm' (vars' c q) G)) ->
  homogenized dim nq det inv half kinv f col tm vars H -> homogenized dim nq det inv half kinv f col tm' vars' H' ->
  le (voigt_energy dim H w) (voigt_energy dim H' w).
Proof.
  intros K le dim nq det inv half kinv f col V V' tm tm' vars vars' H H' w SC PC PSD ML HH HH'.
  destruct (C123_minimum K le dim nq det inv half kinv f col V tm vars H w SC PC PSD HH) as [_ M].
  destruct (C123_minimum K le dim nq det inv half kinv f col V' tm' vars' H' w SC PC) with (2 := HH') as [(u & A & ->) _].
  { intros c q G Hc Hq. eapply (le_trans _ _ (proj1 PC)); [apply (PSD c q G Hc Hq)|apply ML; assumption]. }
  eapply (le_trans _ _ (proj1 PC)); [apply (M u A)|]. apply (avg_le K le dim nq det kinv f PC). intros c q Hc Hq. apply ML; assumption.
Qed.
Print Assumptions C123_monotone.

(** Reuss' bound: for every constant stress [T] and every [s] that bounds the complementary energy of [T] in the material
    ([2 T:G <= G:C:G + s] for all gradients), [2 T:E] is at most the homogenized energy of [E] plus the average of [s]. *)
Theorem C123_reuss :
  forall (K : CRing) le dim nq det inv half kinv (f : fe K) col (V : Type) (tm : tensor_map K V) vars H (w : nat -> K) (T : nat -> nat -> K) (s : nat -> nat -> K),
  sound_cell dim nq half kinv det inv f -> positive_cell le kinv dim nq det f ->
  (forall c q G, c < length (fe_cells f) -> q < nq -> le c0 (density dim tm (vars c q) G)) ->
  homogenized dim nq det inv half kinv f col tm vars H -> periodic_gradients_vanish dim nq det inv f (length (fe_points f) * dim) col ->
  (forall c q G, c < length (fe_cells f) -> q < nq ->
     le (cmul (cadd c1 c1) (Sum dim (fun i => Sum dim (fun d => cmul (T i d) (get2 G i d))))) (cadd (density dim tm (vars c q) G) (s c q))) ->
  le (cmul (cadd c1 c1) (Sum dim (fun i => Sum dim (fun d => cmul (T i d) (get2 (voigt_strain half dim w) i d)))))
     (cadd (voigt_energy dim H w) (cell_average kinv dim nq det f s)).
Proof.
  intros K le dim nq det inv half kinv f col V tm vars H w T s SC PC PSD HH PG HS.
  destruct (C123_minimum K le dim nq det inv half kinv f col V tm vars H w SC PC PSD HH) as [(u & A & ->) _].
  rewrite <- avg_add.
  assert (E : cmul (cadd c1 c1) (Sum dim (fun i => Sum dim (fun d => cmul (T i d) (get2 (voigt_strain half dim w) i d)))) =
    cell_average kinv dim nq det f (fun c q => cmul (cadd c1 c1) (Sum dim (fun i => Sum dim (fun d => cmul (T i d) (get2 (grad_at dim inv [f] 0 u c q) i d)))))).
  { rewrite avg_mul. f_equal. rewrite (avg_sum K dim nq det kinv f dim (fun i c q => Sum dim (fun d => cmul (T i d) (get2 (grad_at dim inv [f] 0 u c q) i d)))).
    apply Sum_ext. intros i Hi. rewrite (avg_sum K dim nq det kinv f dim (fun d c q => cmul (T i d) (get2 (grad_at dim inv [f] 0 u c q) i d))).
    apply Sum_ext. intros d Hd. rewrite avg_mul. f_equal. symmetry. apply (mean_gradient K dim nq det inv half kinv f SC col w u i d PG A Hi Hd). }
  rewrite E. apply (avg_le K le dim nq det kinv f PC). intros c q Hc Hq. apply HS; assumption.
Qed.
Print Assumptions C123_reuss.

(** ** Concrete case: the two-material laminate of [C65_example], and the same cell made of the softer material alone. *)
Definition bo_le (a b : QcR) : Prop := Qcle a b.
Lemma bo_ordered : ordered bo_le.
Proof.
  constructor; unfold bo_le; cbn.
  - apply Qcle_refl.
  - apply Qcle_trans.
  - apply Qcle_antisym.
  - intros a b c d. apply Qcplus_le_compat.
  - intros a b Ha Hb. pose proof (Qcmult_le_compat_r 0%Qc a b Ha Hb) as E. rewrite Qcmult_0_l in E. exact E.
Qed.
Lemma bo_positive : positive_cell bo_le qinv 2 1 lam_det lam_fe.
Proof.
  split; [exact bo_ordered|]. split.
  - intros c q Hc Hq. assert (q = 0) as -> by lia. rewrite lam_jxw by exact Hc. unfold bo_le, Qcle. vm_compute. discriminate.
  - unfold bo_le, Qcle. vm_compute. discriminate.
Qed.
Add Ring QcRb : (cth QcR).
Lemma bo_square (a : QcR) : bo_le c0 (cmul a a).
Proof.
  destruct (Qclt_le_dec a 0%Qc) as [E|E].
  - replace (cmul a a) with (cmul (copp a) (copp a)) by ring. assert (bo_le c0 (copp a)).
    { pose proof (Qcopp_le_compat a 0%Qc (Qclt_le_weak _ _ E)) as F. exact F. }
    apply (le_mul _ _ bo_ordered); assumption.
  - apply (le_mul _ _ bo_ordered); exact E.
Qed.
Definition bo_form (G : list (list QcR)) : QcR :=
  let g i j := get2 G i j in
  cadd (cmul (cadd (g 0 0) (g 1 1)) (cadd (g 0 0) (g 1 1))) (cadd (cmul (cadd (g 0 1) (g 1 0)) (cadd (g 0 1) (g 1 0)))
    (cadd (cadd (cmul (g 0 0) (g 0 0)) (cmul (g 0 0) (g 0 0))) (cadd (cmul (g 1 1) (g 1 1)) (cmul (g 1 1) (g 1 1))))).
Lemma bo_density y G : density 2 lam_tm y G = cmul y (bo_form G).
Proof.
  unfold density, Sum. cbn [seq sumf]. rewrite !lam_linear by lia. unfold Sum. cbn [seq sumf]. unfold lam_C, dl. cbn [Nat.eqb]. unfold bo_form.
  change (qc 1) with (@c1 QcR). change (qc 0) with (@c0 QcR). ring.
Qed.
Lemma bo_form_nonneg G : bo_le c0 (bo_form G).
Proof.
  pose proof (fun a b => le_add _ _ bo_ordered c0 a c0 b) as P. unfold bo_form.
  assert (Z : forall a b, bo_le c0 a -> bo_le c0 b -> bo_le c0 (cadd a b)).
  { intros a b Ha Hb. specialize (P a b Ha Hb). replace (cadd c0 c0) with (@c0 QcR) in P by ring. exact P. }
  repeat apply Z; apply bo_square.
Qed.
Lemma bo_vars c q : bo_le c0 (lam_vars c q) /\ bo_le (qc 1) (lam_vars c q).
Proof. unfold lam_vars. destruct (c <? 2); split; unfold bo_le, Qcle; vm_compute; discriminate. Qed.
Lemma bo_psd c q G : c < length (fe_cells lam_fe) -> q < 1 -> bo_le c0 (density 2 lam_tm (lam_vars c q) G).
Proof. intros _ _. rewrite bo_density. apply (le_mul _ _ bo_ordered); [apply bo_vars|apply bo_form_nonneg]. Qed.
Lemma bo_laminate : exists H, homogenized 2 1 lam_det lam_inv qhalf qinv lam_fe lam_col lam_tm lam_vars H /\ qshow H = lam_expected.
Proof.
  destruct (C65_krylov_responses QcR 2 1 1 lam_det lam_inv (fun _ => c0) qhalf qinv QcR QcR lam_fe FULL lam_ph lam_tm lam_vars lam_vj lam_sj
              lam_xv lam_xs lam_pb 1 lam_bc lam_P lam_col lam_ksolve lam_sound lam_stress lam_tangent_length (fun _ _ => eq_refl)
              lam_built Nat.lt_0_1 lam_affine lam_bc_wf eq_refl lam_ms lam_kexact) as (cases & R & EK).
  eexists. split.
  - exists QcR, 1, (fun _ => c0), FULL, lam_ph, lam_vj, lam_sj, lam_xv, lam_xs, lam_pb, 1, lam_C, cases.
    repeat split; try exact lam_linear; try apply lam_moduli; try (apply Nat.lt_0_1); try apply R; assumption.
  - assert (G : option_map (fun h => qshow (h_C h))
      (hom_krylov qhalf qinv 2 1 lam_det lam_inv lam_pb 1 lam_P lam_ksolve lam_fe lam_tm lam_vars lam_bc) = Some lam_expected)
      by (vm_compute; reflexivity).
    rewrite EK in G. exact (f_equal (fun o => match o with Some x => x | None => [] end) G).
Qed.
Definition bo_build := build 2 1 1 lam_det lam_inv (fun _ => c0) [lam_fe] FULL lam_ph (fun _ _ => qc 1) (@nil (bdata QcR QcR)) lam_vj lam_sj lam_xv lam_xs.
Definition bo_pb : problem QcR (vinp QcR QcR) (finp QcR QcR) := match bo_build with Some p => p | None => lam_pb end.
Definition bo_cases : list (list QcR * list QcR) := map (fun e => let um := macro_displacement (fe_points lam_fe) 2 e in (um, um)) (unit_strains qhalf 2).
Definition bo_H : list (list QcR) := h_C (hom_of_cases qinv 2 1 lam_det lam_inv lam_fe lam_tm (fun _ _ => qc 1) bo_cases).
Lemma bo_soft : homogenized 2 1 lam_det lam_inv qhalf qinv lam_fe lam_col lam_tm (fun _ _ => qc 1) bo_H.
Proof.
  exists QcR, 1, (fun _ => c0), FULL, lam_ph, lam_vj, lam_sj, lam_xv, lam_xs, bo_pb, 1, lam_C, bo_cases.
  repeat split; try exact lam_linear; try apply lam_moduli; try (apply Nat.lt_0_1).
  - intros i j Hi Hj E. destruct k as [|[|[|k]]]; [| | |cbn in H; lia]; cbn [nth bo_cases map fst]; rewrite !(Ring_theory.Rsub_def (cth QcR)), !(Ring_theory.Ropp_def (cth QcR)); reflexivity.
  - change (pr_n bo_pb) with 12. intros i Hi. apply Qc_is_canon.
    destruct k as [|[|[|k]]]; [| | |cbn in H; lia]; (do 12 (destruct i as [|i]; [vm_compute; reflexivity|])); lia.
Qed.
Lemma bo_reuss c q G : c < length (fe_cells lam_fe) -> q < 1 ->
  bo_le (cmul (cadd c1 c1) (Sum 2 (fun i => Sum 2 (fun d => cmul (if (i =? 0) && (d =? 0) then qc 6 else c0) (get2 G i d)))))
        (cadd (density 2 lam_tm (lam_vars c q) G) (if c <? 2 then qc 18 else qc 6)).
Proof.
  intros _ _. rewrite bo_density. apply (sub_le0 QcR bo_le bo_ordered). unfold Sum. cbn [seq sumf Nat.eqb andb].
  assert (P : forall a b, bo_le c0 a -> bo_le c0 b -> bo_le c0 (cadd a b)).
  { intros a b Ha Hb. pose proof (le_add _ _ bo_ordered c0 a c0 b Ha Hb) as E. replace (cadd c0 c0) with (@c0 QcR) in E by ring. exact E. }
  set (g i j := get2 G i j).
  set (r := cadd (cmul (cadd (g 0 0) (g 1 1)) (cadd (g 0 0) (g 1 1))) (cadd (cmul (cadd (g 0 1) (g 1 0)) (cadd (g 0 1) (g 1 0))) (cadd (cmul (g 1 1) (g 1 1)) (cmul (g 1 1) (g 1 1))))).
  assert (Hr : bo_le c0 r) by (unfold r; repeat apply P; apply bo_square).
  assert (E3 : qc 3 = cadd c1 (cadd c1 c1)) by (apply Qc_is_canon; vm_compute; reflexivity).
  assert (E6 : qc 6 = cmul (cadd c1 c1) (cadd c1 (cadd c1 c1))) by (apply Qc_is_canon; vm_compute; reflexivity).
  assert (E18 : qc 18 = cmul (cadd c1 (cadd c1 c1)) (cmul (cadd c1 c1) (cadd c1 (cadd c1 c1)))) by (apply Qc_is_canon; vm_compute; reflexivity).
  unfold lam_vars. destruct (c <? 2).
  - match goal with |- bo_le c0 ?x => replace x with (cadd r (cmul (qc 2) (cmul (csub (g 0 0) (qc 3)) (csub (g 0 0) (qc 3))))) end.
    + apply P; [exact Hr|]. apply (le_mul _ _ bo_ordered); [unfold bo_le, Qcle; vm_compute; discriminate|apply bo_square].
    + subst g. unfold r, bo_form. cbv beta zeta. rewrite E3, E6, E18. change (qc 1) with (@c1 QcR). assert (E2 : qc 2 = cadd c1 c1) by (apply Qc_is_canon; vm_compute; reflexivity). rewrite E2. ring.
  - match goal with |- bo_le c0 ?x => replace x with (cadd (cmul (qc 3) r) (cmul (qc 6) (cmul (csub (g 0 0) c1) (csub (g 0 0) c1)))) end.
    + apply P; [apply (le_mul _ _ bo_ordered); [unfold bo_le, Qcle; vm_compute; discriminate|exact Hr]|]. apply (le_mul _ _ bo_ordered); [unfold bo_le, Qcle; vm_compute; discriminate|apply bo_square].
    + subst g. unfold r, bo_form. cbv beta zeta. rewrite E3, E6. ring.
Qed.
(** The stiffness [[9/2; 3/2; 0]; [3/2; 35/6; 0]; [0; 0; 3/2]] of the laminate lies between the bounds, for every strain. *)
Example C123_example :
  exists H, qshow H = lam_expected /\ forall w : nat -> QcR,
    bo_le c0 (voigt_energy 2 H w) /\
    bo_le (voigt_energy 2 H w) (cell_average qinv 2 1 lam_det lam_fe (fun c q => density 2 lam_tm (lam_vars c q) (voigt_strain qhalf 2 w))) /\
    bo_le (voigt_energy 2 bo_H w) (voigt_energy 2 H w) /\
    bo_le (cmul (cadd c1 c1) (Sum 2 (fun i => Sum 2 (fun d => cmul (if (i =? 0) && (d =? 0) then qc 6 else c0) (get2 (voigt_strain qhalf 2 w) i d)))))
          (cadd (voigt_energy 2 H w) (cell_average qinv 2 1 lam_det lam_fe (fun c q => if c <? 2 then qc 18 else qc 6))) /\
    qshow bo_H = [[3; 1; 0]; [1; 3; 0]; [0; 0; 1]]%Q.
Proof.
  destruct bo_laminate as (H & HH & E). exists H. split; [exact E|]. intros w. repeat split.
  - exact (C123_semidefinite QcR bo_le 2 1 lam_det lam_inv qhalf qinv lam_fe lam_col QcR lam_tm lam_vars H w lam_sound bo_positive bo_psd HH).
  - exact (C123_voigt QcR bo_le 2 1 lam_det lam_inv qhalf qinv lam_fe lam_col QcR lam_tm lam_vars H w lam_sound bo_positive bo_psd HH).
  - refine (C123_monotone QcR bo_le 2 1 lam_det lam_inv qhalf qinv lam_fe lam_col QcR QcR lam_tm lam_tm (fun _ _ => qc 1) lam_vars bo_H H w lam_sound bo_positive _ _ bo_soft HH).
    + intros c q G _ _. rewrite bo_density. apply (le_mul _ _ bo_ordered); [unfold bo_le, Qcle; vm_compute; discriminate|apply bo_form_nonneg].
    + intros c q G _ _. rewrite !bo_density. rewrite !(Ring_theory.Rmul_comm (cth QcR) _ (bo_form G)). apply (le_mul_l QcR bo_le bo_ordered); [apply bo_form_nonneg|apply bo_vars].
  - exact (C123_reuss QcR bo_le 2 1 lam_det lam_inv qhalf qinv lam_fe lam_col QcR lam_tm lam_vars H w _ _ lam_sound bo_positive bo_psd HH C65_example_homogeneous bo_reuss).
Qed.
