(** C121: balances of multi-variable (mixed) problems. *)
From Coq Require Import List Arith Lia ZArith.
From Verif Require Import Base Csr_Model Assembly_Model AssemblyMain_Proofs Dof_Model Dof_Spec Dof_Proofs
                          Kernel_Model Kernel_Spec Kernel_Proofs Kernel_Props Patch_Props Moment_Props.
Import ListNotations.

(** ** Specification *)
Section Spec.
  Variable K : CRing.
  Local Open Scope ring_K.
  Variables (dim nq nfq : nat) (det : list (list K) -> K) (inv : list (list K) -> list (list K)) (norm : list K -> K) (V W : Type).
  Variables (fes : list (fe K)) (u : list K).
  (** What the weak form returns at a quadrature point: one source and one flux per variable. *)
  Definition weak_output (wf : weak_form K V) (vars : nat -> nat -> V) (c q : nat) : list (list K) * list (list (list K)) :=
    wf (tab (length fes) (fun i => field_at fes i u c q)) (tab (length fes) (fun i => grad_at dim inv fes i u c q)) (quad_point dim (fe_at fes 0) c q) (vars c q).
  (** Integral of component [k] of the source of variable [i]. *)
  Definition source_total (wf : weak_form K V) (vars : nat -> nat -> V) (i k : nat) : K :=
    over_cells nq fes (fun c q => JxW dim det (fe_at fes i) c q * get (nth i (fst (weak_output wf vars c q)) []) k).
  (** Integral of component [k] of what the boundaries take from variable [i]. *)
  Definition flux_total (bnd : list (bdata K W)) (i k : nat) : K :=
    sumf (fun b => opt_term (bp_weak (bd_ph b)) (fun sw => over_faces nfq b (fun c e q w =>
      nanson dim det inv norm (fe_at fes i) c e q * get (nth i (sw (tab (length fes) (fun j => face_field_at fes j u c e q)) (face_point dim (fe_at fes 0) c e q) w) []) k))) bnd.
End Spec.
Arguments weak_output {K} dim inv {V}. Arguments source_total {K} dim nq det inv {V}. Arguments flux_total {K} dim nfq det inv norm {W}.

Section Pick.
  Variable K : CRing.
  Add Ring KR121 : (cth K).
  Local Open Scope ring_K.
  Lemma pick_sum N (d : nat -> nat) (g : nat -> K) n : (forall a, a < n -> d a < N) -> (forall a b, a < n -> b < n -> d a = d b -> a = b) ->
    Sum N (fun j => (if existsb (fun a => (d a =? j)%nat) (seq 0 n) then 1 else 0) * g j) = Sum n (fun a => g (d a)).
  Proof.
    induction n as [|n IH]; intros B I; [apply Sum_zero; intros; cbn; ring|]. rewrite Sum_S, <- IH by (intros; (apply B; lia) || (apply I; lia)).
    rewrite <- (Sum_single K N (d n) g (B n (Nat.lt_succ_diag_r n))), <- Sum_add. apply Sum_ext. intros j Hj. rewrite seq_S, existsb_app. cbn [existsb Nat.add]. rewrite Bool.orb_false_r.
    destruct (existsb (fun a => (d a =? j)%nat) (seq 0 n)) eqn:E.
    - apply existsb_exists in E. destruct E as (a & Ha & Ea). apply in_seq in Ha. apply Nat.eqb_eq in Ea. destruct (Nat.eqb_spec j (d n)) as [->|Hn].
      + exfalso. assert (a = n) by (apply I; lia). lia.
      + cbn [orb]. ring.
    - cbn [orb]. rewrite Nat.eqb_sym. destruct (j =? d n)%nat; ring.
  Qed.
  Lemma one_hot n k (m : nat -> K) : k < n -> Sum n (fun j => m j * (if (j =? k)%nat then 1 else 0)) = m k.
  Proof. intros Hk. rewrite (Sum_ext K _ _ (fun j => if (j =? k)%nat then m j else 0)); [apply Sum_single; exact Hk|]. intros j _. destruct (j =? k)%nat; ring. Qed.

  Variables (dim : nat) (inv : list (list K) -> list (list K)) (fes : list (fe K)) (i k : nat).
  Hypothesis (WF : wf_fes fes) (Hi : i < length fes) (Hk : k < fe_vec (fe_at fes i)).
  Local Notation L := (layout_of fes).
  Definition picker : list K := tab (total_dofs L) (fun j => if existsb (fun a => (dof L i a k =? j)%nat) (seq 0 (length (fe_points (fe_at fes i)))) then 1 else 0).
  Lemma layout_at j : j < length fes -> nth j L (0, 0)%nat = (length (fe_points (fe_at fes j)), fe_vec (fe_at fes j)).
  Proof using. intros Hj. unfold layout_of, fe_at. rewrite nth_map_in with (d := fe0 K) by exact Hj. reflexivity. Qed.
  Lemma valid j a e : j < length fes -> a < length (fe_points (fe_at fes j)) -> e < fe_vec (fe_at fes j) -> valid_dof L j a e.
  Proof using. intros Hj Ha He. unfold valid_dof. rewrite layout_at by exact Hj. cbn [fst snd]. repeat split; try assumption. unfold layout_of. rewrite map_length. exact Hj. Qed.
  Lemma picker_at j a e : j < length fes -> a < length (fe_points (fe_at fes j)) -> e < fe_vec (fe_at fes j) ->
    get picker (dof L j a e) = if ((j =? i) && (e =? k))%nat%bool then 1 else 0.
  Proof using Hi Hk.
    intros Hj Ha He. unfold picker. rewrite get_tab by (apply dof_lt, valid; assumption).
    destruct (existsb _ _) eqn:E.
    - apply existsb_exists in E. destruct E as (b & Hb & Eb). apply in_seq in Hb. apply Nat.eqb_eq in Eb.
      destruct (@dof_inj L i b k j a e) as (-> & _ & ->); [apply valid; [exact Hi|lia|exact Hk]|apply valid; assumption|exact Eb|]. rewrite !Nat.eqb_refl. reflexivity.
    - destruct (Nat.eqb_spec j i) as [->|]; [|reflexivity]. destruct (Nat.eqb_spec e k) as [->|]; [|reflexivity]. exfalso.
      assert (T : existsb (fun b => (dof L i b k =? dof L i a k)%nat) (seq 0 (length (fe_points (fe_at fes i)))) = true).
      { apply existsb_exists. exists a. split; [apply in_seq; lia|apply Nat.eqb_refl]. }
      rewrite T in E. discriminate.
  Qed.
  Lemma picker_nodal j c n e : j < length fes -> c < num_cells fes -> n < fe_nn (fe_at fes j) -> e < fe_vec (fe_at fes j) ->
    nodal fes j picker c n e = if ((j =? i) && (e =? k))%nat%bool then 1 else 0.
  Proof using WF Hi Hk.
    intros Hj Hc Hn He. unfold nodal. apply picker_at; [exact Hj| |exact He].
    assert (Hf : In (fe_at fes j) fes) by (unfold fe_at; apply nth_In; exact Hj). destruct (WF _ Hf) as [Lc W]. rewrite <- Lc in Hc.
    apply (W (nth c (fe_cells (fe_at fes j)) [])); [apply nth_In; exact Hc|]. unfold node_of. apply nth_In. rewrite (proj1 (W _ (nth_In _ _ Hc))). exact Hn.
  Qed.
  Lemma picker_interp (w : nat -> K) j c e (s : K) : j < length fes -> c < num_cells fes -> e < fe_vec (fe_at fes j) -> Sum (fe_nn (fe_at fes j)) w = s ->
    Sum (fe_nn (fe_at fes j)) (fun n => w n * nodal fes j picker c n e) = if ((j =? i) && (e =? k))%nat%bool then s else 0.
  Proof using WF Hi Hk.
    intros Hj Hc He <-. rewrite (Sum_ext K _ _ (fun n => w n * (if ((j =? i) && (e =? k))%nat%bool then 1 else 0))) by (intros n Hn; rewrite picker_nodal by assumption; reflexivity).
    rewrite Sum_mul_r. destruct ((j =? i) && (e =? k))%nat%bool; ring.
  Qed.
  Lemma picker_dot j (m v : list K) : (forall e, e < fe_vec (fe_at fes j) -> get v e = if ((j =? i) && (e =? k))%nat%bool then 1 else 0) ->
    dot1 (fe_vec (fe_at fes j)) m v = if (j =? i)%nat then get m k else 0.
  Proof using Hk.
    intros H. unfold dot1. destruct (Nat.eqb_spec j i) as [->|Hn].
    - rewrite <- (one_hot (fe_vec (fe_at fes i)) k (get m) Hk). apply Sum_ext. intros e He. rewrite (H e He). reflexivity.
    - apply Sum_zero. intros e He. rewrite (H e He). cbn [andb]. ring.
  Qed.
End Pick.

Section Balance.
  Variable K : CRing.
  Add Ring KR121b : (cth K).
  Local Open Scope ring_K.
  Variables (dim nq nfq : nat) (det : list (list K) -> K) (inv : list (list K) -> list (list K)) (norm : list K -> K) (V W : Type).
  Variables (fes : list (fe K)) (vw : view) (ph : physics K V) (vars : nat -> nat -> V) (bnd : list (bdata K W)).
  Variables (vj : list K -> vinp K V -> list K) (sj : list K -> finp K W -> list K) (xv : vinp K V) (xs : finp K W) (pb : problem K (vinp K V) (finp K W)) (bs0 : nat).
  Hypothesis (WF : wf_fes fes) (H2 : 1 < length fes) (WB : forall b, In b bnd -> wf_bdata fes b).
  Hypothesis (TJ : forall u x, length (vj u x) = (num_local fes * num_local fes)%nat) (TS : forall u x, length (sj u x) = (num_local fes * num_local fes)%nat) (Hbs : 0 < bs0).
  Hypothesis (PU : ph_universal ph = None) (PE : ph_extra ph = None) (PB : forall b, In b bnd -> bp_universal (bd_ph b) = None).
  Hypothesis (EB : build dim nq nfq det inv norm fes vw ph vars bnd vj sj xv xs = Some pb).
  Variables (u : list K) (i k : nat).
  Hypothesis (Hi : i < length fes) (Hk : k < fe_vec (fe_at fes i)).
  Hypothesis (U : forall j, j < length fes -> unity K dim (fe_at fes j)).
  Hypothesis (SV : forall j q, j < length fes -> q < nq -> Sum (fe_nn (fe_at fes j)) (fe_sv (fe_at fes j) q) = 1).
  Hypothesis (SF : forall j g q, j < length fes -> q < nfq -> Sum (fe_nn (fe_at fes j)) (fe_fsv (fe_at fes j) g q) = 1).
  Lemma total_residual : Sum (length (fe_points (fe_at fes i))) (fun a => get (get_res pb bs0 u) (dof (layout_of fes) i a k)) =
    opt_term (ph_weak ph) (fun wf => source_total dim nq det inv fes u wf vars i k) + flux_total dim nfq det inv norm fes u bnd i k.
  Proof using WF H2 WB TJ TS Hbs PU PE PB EB Hi Hk U SV SF.
    set (v := picker K fes i k).
    assert (FV : forall j c q e, j < length fes -> c < num_cells fes -> q < nq -> e < fe_vec (fe_at fes j) -> get (field_at fes j v c q) e = if ((j =? i) && (e =? k))%nat%bool then 1 else 0).
    { intros j c q e Hj Hc Hq He. unfold field_at. rewrite get_tab by exact He. apply (picker_interp K fes i k WF Hi Hk _ j c e 1 Hj Hc He (SV j q Hj Hq)). }
    assert (GV : forall j c q e d, j < length fes -> c < num_cells fes -> e < fe_vec (fe_at fes j) -> d < dim -> get2 (grad_at dim inv fes j v c q) e d = 0).
    { intros j c q e d Hj Hc He Hd. unfold grad_at. rewrite (get2_tab K _ dim) by assumption.
      eapply eq_trans; [exact (picker_interp K fes i k WF Hi Hk (fun n => shape_grad dim inv (fe_at fes j) c q n d) j c e 0 Hj Hc He (shape_grad_unity K dim inv (fe_at fes j) c q d (U j Hj)))|]. destruct ((j =? i) && (e =? k))%nat%bool; reflexivity. }
    assert (EV : forall j c g q e, j < length fes -> c < num_cells fes -> q < nfq -> e < fe_vec (fe_at fes j) -> get (face_field_at fes j v c g q) e = if ((j =? i) && (e =? k))%nat%bool then 1 else 0).
    { intros j c g q e Hj Hc Hq He. unfold face_field_at. rewrite get_tab by exact He. apply (picker_interp K fes i k WF Hi Hk _ j c e 1 Hj Hc He (SF j g q Hj Hq)). }
    transitivity (virtual_work (pr_n pb) v (get_res pb bs0 u)).
    { assert (N : pr_n pb = total_dofs (layout_of fes)).
      { unfold build in EB. destruct (volume_kernel _ _ _ _) as [kk|]; [|discriminate]. destruct (all_opt _); [|discriminate]. injection EB as <-. reflexivity. }
      rewrite N. unfold virtual_work. rewrite <- (pick_sum K (total_dofs (layout_of fes)) (fun a => dof (layout_of fes) i a k) (get (get_res pb bs0 u)) (length (fe_points (fe_at fes i)))).
      - apply Sum_ext. intros j Hj. unfold v, picker. rewrite get_tab by exact Hj. reflexivity.
      - intros a Ha. apply dof_lt, (valid K fes i a k Hi Ha Hk).
      - intros a b Ha Hb E. destruct (@dof_inj (layout_of fes) i a k i b k (valid K fes i a k Hi Ha Hk) (valid K fes i b k Hi Hb Hk) E) as (_ & E' & _). exact E'. }
    assert (KS : kernel_shapes fes ph bnd). { split; [intros kk [E|E]; congruence|]. intros b kk Hb E. rewrite (PB b Hb) in E. discriminate. }
    rewrite (C63_composition K dim nq nfq det inv norm V W fes vw ph vars bnd vj sj xv xs pb bs0 u v WF (Nat.lt_trans _ _ _ Nat.lt_0_1 H2) WB KS TJ TS Hbs EB).
    unfold volume_terms. rewrite PU, PE. rewrite (proj2 (Nat.ltb_lt _ _) H2). cbn [opt_term]. f_equal.
    - match goal with |- ?a + 0 = ?b => replace (a + 0) with a by ring end. destruct (ph_weak ph) as [wf|]; cbn [opt_term]; [|reflexivity].
      unfold weak_volume, source_total, over_cells. apply Sum_ext. intros c Hc. apply Sum_ext. intros q Hq. cbv zeta. fold (weak_output dim inv fes u wf vars c q).
      set (out := weak_output dim inv fes u wf vars c q).
      rewrite (Sum_ext K _ _ (fun j => if (j =? i)%nat then JxW dim det (fe_at fes j) c q * get (nth j (fst out) []) k else 0)); [apply (Sum_single K _ i (fun j => JxW dim det (fe_at fes j) c q * get (nth j (fst out) []) k) Hi)|].
      intros j Hj. assert (D2 : dot2 (fe_vec (fe_at fes j)) dim (nth j (snd out) []) (grad_at dim inv fes j v c q) = 0).
      { unfold dot2. apply Sum_zero. intros e He. apply Sum_zero. intros d Hd. rewrite (GV j c q e d Hj Hc He Hd). ring. }
      rewrite D2, (picker_dot K fes i k Hk j _ _ (fun e He => FV j c q e Hj Hc Hq He)). destruct (j =? i)%nat; ring.
    - unfold flux_total. apply sumf_ext. intros b Hb. unfold surface_terms. rewrite (proj2 (Nat.ltb_lt _ _) H2). cbv zeta. rewrite (PB b Hb).
      destruct (bp_weak (bd_ph b)) as [sw|]; cbn [opt_term]; [|reflexivity]. unfold weak_surface, over_faces. apply sumf_ext. intros [[c g] w] Hp. cbn [fst snd]. apply Sum_ext. intros q Hq. cbv zeta.
      set (out := sw _ _ _).
      rewrite (Sum_ext K _ _ (fun j => if (j =? i)%nat then nanson dim det inv norm (fe_at fes j) c g q * get (nth j out []) k else 0)); [apply (Sum_single K _ i (fun j => nanson dim det inv norm (fe_at fes j) c g q * get (nth j out []) k) Hi)|].
      intros j Hj. assert (Hc : c < num_cells fes) by (apply (proj2 (WB b Hb) (c, g)); apply (in_combine_l _ _ _ _ Hp)).
      rewrite (picker_dot K fes i k Hk j _ _ (fun e He => EV j c g q e Hj Hc Hq He)). destruct (j =? i)%nat; ring.
  Qed.
  Lemma pull (j r' a b : K) : j * (r' * (a - b)) = r' * (j * a - j * b).
  Proof using. ring. Qed.
End Balance.

(** ** Theorems *)

(** The reactions of each component of each variable add up to the integral of its source and of its boundary terms; fluxes inside the body
    cancel. *)
Theorem C121_balance :
  forall (K : CRing) dim nq nfq det inv norm (V W : Type) (fes : list (fe K)) vw (ph : physics K V) vars (bnd : list (bdata K W)) vj sj xv xs pb bs0 (u : list K) rows i k wf,
  wf_fes fes -> 1 < length fes -> (forall b, In b bnd -> wf_bdata fes b) ->
  (forall u x, length (vj u x) = num_local fes * num_local fes) -> (forall u x, length (sj u x) = num_local fes * num_local fes) -> 0 < bs0 ->
  ph_universal ph = None -> ph_extra ph = None -> (forall b, In b bnd -> bp_universal (bd_ph b) = None) -> ph_weak ph = Some wf ->
  build dim nq nfq det inv norm fes vw ph vars bnd vj sj xv xs = Some pb ->
  (forall j, j < length fes -> unity K dim (fe_at fes j)) ->
  (forall j q, j < length fes -> q < nq -> Sum (fe_nn (fe_at fes j)) (fe_sv (fe_at fes j) q) = c1) ->
  (forall j g q, j < length fes -> q < nfq -> Sum (fe_nn (fe_at fes j)) (fe_fsv (fe_at fes j) g q) = c1) ->
  i < length fes -> k < fe_vec (fe_at fes i) ->
  (forall a, a < length (fe_points (fe_at fes i)) -> ~ In (dof (layout_of fes) i a k) rows -> get (get_res pb bs0 u) (dof (layout_of fes) i a k) = c0) ->
  Sum (length (fe_points (fe_at fes i))) (fun a => if existsb (Nat.eqb (dof (layout_of fes) i a k)) rows then get (get_res pb bs0 u) (dof (layout_of fes) i a k) else c0) =
  cadd (source_total dim nq det inv fes u wf vars i k) (flux_total dim nfq det inv norm fes u bnd i k).
Proof.
  intros K dim nq nfq det inv norm V W fes vw ph vars bnd vj sj xv xs pb bs0 u rows i k wf WF H2 WB TJ TS Hbs PU PE PB PW EB U SV SF Hi Hk Q.
  pose proof (total_residual K dim nq nfq det inv norm V W fes vw ph vars bnd vj sj xv xs pb bs0 WF H2 WB TJ TS Hbs PU PE PB EB u i k Hi Hk U SV SF) as T.
  rewrite PW in T. cbn [opt_term] in T. rewrite <- T. apply Sum_ext. intros a Ha. destruct (existsb _ rows) eqn:E; [reflexivity|]. symmetry. apply (Q a Ha). intros Hin.
  assert (X : existsb (Nat.eqb (dof (layout_of fes) i a k)) rows = true) by (apply existsb_exists; eexists; split; [exact Hin|apply Nat.eqb_refl]). congruence.
Qed.
Print Assumptions C121_balance.

(** Conservation in time: if variable [i] is free of supports and its source is a difference quotient with the old field, its integral changes
    only by the boundary terms, whatever the other variables and the fluxes do (for example the concentration of a Cahn-Hilliard step). *)
Theorem C121_conserved :
  forall (K : CRing) dim nq nfq det inv norm (V W : Type) (fes : list (fe K)) vw (ph : physics K V) vars (bnd : list (bdata K W)) vj sj xv xs pb bs0 (u u0 : list K) i k wf (r : K),
  wf_fes fes -> 1 < length fes -> (forall b, In b bnd -> wf_bdata fes b) ->
  (forall u x, length (vj u x) = num_local fes * num_local fes) -> (forall u x, length (sj u x) = num_local fes * num_local fes) -> 0 < bs0 ->
  ph_universal ph = None -> ph_extra ph = None -> (forall b, In b bnd -> bp_universal (bd_ph b) = None) -> ph_weak ph = Some wf ->
  build dim nq nfq det inv norm fes vw ph vars bnd vj sj xv xs = Some pb ->
  (forall j, j < length fes -> unity K dim (fe_at fes j)) ->
  (forall j q, j < length fes -> q < nq -> Sum (fe_nn (fe_at fes j)) (fe_sv (fe_at fes j) q) = c1) ->
  (forall j g q, j < length fes -> q < nfq -> Sum (fe_nn (fe_at fes j)) (fe_fsv (fe_at fes j) g q) = c1) ->
  i < length fes -> k < fe_vec (fe_at fes i) ->
  (forall a, a < length (fe_points (fe_at fes i)) -> get (get_res pb bs0 u) (dof (layout_of fes) i a k) = c0) ->
  (forall c q, c < num_cells fes -> q < nq -> get (nth i (fst (weak_output dim inv fes u wf vars c q)) []) k =
     cmul r (csub (get (field_at fes i u c q) k) (get (field_at fes i u0 c q) k))) ->
  let total w := over_cells nq fes (fun c q => cmul (JxW dim det (fe_at fes i) c q) (get (field_at fes i w c q) k)) in
  cadd (cmul r (csub (total u) (total u0))) (flux_total dim nfq det inv norm fes u bnd i k) = c0.
Proof.
  intros K dim nq nfq det inv norm V W fes vw ph vars bnd vj sj xv xs pb bs0 u u0 i k wf r WF H2 WB TJ TS Hbs PU PE PB PW EB U SV SF Hi Hk Q ME total.
  pose proof (total_residual K dim nq nfq det inv norm V W fes vw ph vars bnd vj sj xv xs pb bs0 WF H2 WB TJ TS Hbs PU PE PB EB u i k Hi Hk U SV SF) as T.
  rewrite PW in T. cbn [opt_term] in T. etransitivity; [|etransitivity; [symmetry; exact T|apply Sum_zero; exact Q]].
  f_equal. unfold total, source_total, over_cells. rewrite <- Sum_sub, <- Sum_mul_l. apply Sum_ext. intros c Hc. rewrite <- Sum_sub, <- Sum_mul_l. apply Sum_ext. intros q Hq.
  rewrite (ME c q Hc Hq). symmetry. apply pull.
Qed.
Print Assumptions C121_conserved.

(** Concrete case: one step of a Cahn-Hilliard problem (concentration [c], chemical potential [mu = c^3 - c - lap c]) on two bars in a row, from the
    concentrations -2 and 4 to 0 and 1, one unit leaving through the right end. *)
Definition mx_fe : fe ZK :=
  @Build_fe ZK 1 2 [[0]; [1]; [2]]%Z [[0; 1]; [1; 2]] (fun _ n => if n =? 0 then 1%Z else 0%Z) (fun _ n _ => if n =? 0 then (-1)%Z else 1%Z) (fun _ => 1%Z)
    (fun g _ n => if n =? (if g =? 0 then 0 else 1) then 1%Z else 0%Z) (fun _ _ n _ => if n =? 0 then (-1)%Z else 1%Z) (fun _ _ => 1%Z) (fun _ _ => 1%Z).
Definition mx_det (M : list (list Z)) : Z := nth 0 (nth 0 M []) 0%Z.
Definition mx_inv (M : list (list Z)) : list (list Z) := M.
Definition mx_wf : weak_form ZK Z := fun vals grads _ old =>
  let c := get2 (K := ZK) vals 0 0 in let mu := get2 (K := ZK) vals 1 0 in
  let dc := get2 (K := ZK) (nth 0 grads []) 0 0 in let dmu := get2 (K := ZK) (nth 1 grads []) 0 0 in
  ([[c - old]; [mu - (c * c * c - c)]], [[[dmu]]; [[- dc]]])%Z.
Definition mx_ph : physics ZK Z := Build_physics ZK Z None (Some mx_wf) None None None None.
Definition mx_bph : bphysics ZK Z := Build_bphysics ZK Z None (Some (fun _ _ w => [[w]; [0]]%Z)) None.
Definition mx_bnd : list (bdata ZK Z) := [Build_bdata ZK Z [(1, 1)] mx_bph [fun _ => 1%Z]].
Definition mx_vars (c q : nat) : Z := if c =? 0 then (-2)%Z else 4%Z.
Definition mx_u : list Z := [0; 1; 1; -1; 1; 0]%Z.
Definition mx_u0 : list Z := [-2; 4; 9; 7; 7; 7]%Z.
Definition mx_build :=
  build (K := ZK) 1 1 1 mx_det mx_inv (fun _ => 1%Z) [mx_fe; mx_fe] FULL mx_ph mx_vars mx_bnd (fun _ _ => repeat 0%Z 16) (fun _ _ => repeat 0%Z 16)
    (vinp_of 1 mx_det mx_inv [mx_fe; mx_fe] (fun c q => 0%Z) 0) (finp_of 1 mx_det mx_inv (fun _ => 1%Z) [mx_fe; mx_fe] (fun _ => 0%Z) (0, 0)).
Example C121_example :
  wf_fes [mx_fe; mx_fe] /\ (forall b, In b mx_bnd -> wf_bdata [mx_fe; mx_fe] b) /\ num_local [mx_fe; mx_fe] = 4 /\
  (forall j, j < 2 -> unity ZK 1 (fe_at [mx_fe; mx_fe] j)) /\
  (forall j q, j < 2 -> q < 1 -> Sum (fe_nn (fe_at [mx_fe; mx_fe] j)) (fe_sv (fe_at [mx_fe; mx_fe] j) q) = 1%Z) /\
  (forall j g q, j < 2 -> q < 1 -> Sum (fe_nn (fe_at [mx_fe; mx_fe] j)) (fe_fsv (fe_at [mx_fe; mx_fe] j) g q) = 1%Z) /\
  (exists pb, mx_build = Some pb /\ get_res pb 1 mx_u = [0; 0; 0; 0; 0; 0]%Z) /\
  (forall c q, c < 2 -> q < 1 -> get (K := ZK) (nth 0 (fst (weak_output (K := ZK) 1 mx_inv [mx_fe; mx_fe] mx_u mx_wf mx_vars c q)) []) 0 =
     (1 * (get (K := ZK) (field_at [mx_fe; mx_fe] 0 mx_u c q) 0 - get (K := ZK) (field_at [mx_fe; mx_fe] 0 mx_u0 c q) 0))%Z) /\
  source_total (K := ZK) 1 1 mx_det mx_inv [mx_fe; mx_fe] mx_u mx_wf mx_vars 0 0 = (-1)%Z /\
  flux_total (K := ZK) 1 1 mx_det mx_inv (fun _ => 1%Z) [mx_fe; mx_fe] mx_u mx_bnd 0 0 = 1%Z.
Proof.
  split. { intros f [<-|[<-|[]]]; (split; [reflexivity|]); intros c [<-|[<-|[]]]; split; try reflexivity; intros n Hn; cbn in Hn |- *; lia. }
  split. { intros b [<-|[]]. split; [reflexivity|]. intros cg [<-|[]]. cbn. lia. }
  split; [reflexivity|].
  split. { intros [|[|j]] Hj; try lia; intros q e He; reflexivity. }
  split. { intros [|[|j]] q Hj Hq; try lia; reflexivity. }
  split. { intros [|[|j]] [|g] q Hj Hq; try lia; reflexivity. }
  split. { eexists. split; [exact (eq_refl mx_build : mx_build = Some _)|vm_compute; reflexivity]. }
  split. { intros [|[|c]] [|q] Hc Hq; try lia; vm_compute; reflexivity. }
  split; vm_compute; reflexivity.
Qed.
