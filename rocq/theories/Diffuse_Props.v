(** C120: backward-Euler steps dissipate and conserve. *)
From Coq Require Import List Arith Lia ZArith.
From Verif Require Import Base Csr_Model Assembly_Model AssemblyMain_Proofs Dof_Model Dof_Spec Dof_Proofs
                          Kernel_Model Kernel_Spec Kernel_Proofs Kernel_Props Patch_Props Moment_Props Potential_Props Linear_Props Stiffness_Props.
Import ListNotations.

(** ** Specification *)
Section Spec.
  Variable K : CRing.
  Local Open Scope ring_K.
  Variables (dim nq nfq : nat) (det : list (list K) -> K) (inv : list (list K) -> list (list K)) (norm : list K -> K) (V W : Type) (f : fe K).
  Variables (rho : V -> K) (old : V -> list K).
  (** The body term of a backward-Euler step of rate [r] (one over the time step): density times the difference quotient between the field
      and the previous field, which is handed over in the parameters. *)
  Definition euler_body (r : K) (mm : mass_map K V) (vars : nat -> nat -> V) : Prop :=
    forall c q a x k, c < length (fe_cells f) -> q < nq -> k < fe_vec f -> get (mm a x (vars c q)) k = r * (rho (vars c q) * (get a k - get (old (vars c q)) k)).
  (** The parameters hold the field of [u0] at the quadrature points. *)
  Definition holds_old (vars : nat -> nat -> V) (u0 : list K) : Prop :=
    forall c q k, c < length (fe_cells f) -> q < nq -> k < fe_vec f -> get (old (vars c q)) k = get (field_at [f] 0 u0 c q) k.
  (** Weighted square and weighted integral (of component [k]) of a field. *)
  Definition square (d : nat -> nat -> K) (u : list K) : K :=
    over_cells nq [f] (fun c q => JxW dim det f c q * (d c q * dot1 (fe_vec f) (field_at [f] 0 u c q) (field_at [f] 0 u c q))).
  Definition content (d : nat -> nat -> K) (k : nat) (u : list K) : K :=
    over_cells nq [f] (fun c q => JxW dim det f c q * (d c q * get (field_at [f] 0 u c q) k)).
  (** Work of the fluxes through the boundaries. *)
  Definition outflow (bnd : list (bdata K W)) (u : list K) : K :=
    sumf (fun b => opt_term (bp_map (bd_ph b)) (fun sm => map_surface dim nfq det inv norm [f] sm b u u)) bnd.
  (** One step from [u0] to [u1]: a problem whose stress is [tm] and whose body term is the difference quotient, solved exactly: [u1] vanishes at
      the supports [rows] and is in equilibrium elsewhere. *)
  Definition euler_step (bnd : list (bdata K W)) (tm : tensor_map K V) (vars : nat -> nat -> V) (r : K) (rows : list nat) (u0 u1 : list K) : Prop :=
    exists vw ph mm vj sj xv xs pb bs,
    (forall u x, length (vj u x) = num_local [f] * num_local [f])%nat /\ (forall u x, length (sj u x) = num_local [f] * num_local [f])%nat /\ 0 < bs /\
    ph_universal ph = None /\ ph_extra ph = None /\ ph_mass ph = Some mm /\ stress_of ph = Some tm /\
    euler_body r mm vars /\ holds_old vars u0 /\
    build dim nq nfq det inv norm [f] vw ph vars bnd vj sj xv xs = Some pb /\
    equilibrium (length (fe_points f) * fe_vec f)%nat rows (get_res pb bs u1) /\ (forall i, In i rows -> get u1 i = 0).
End Spec.
Arguments euler_step {K} dim nq nfq det inv norm {V W}. Arguments square {K} dim nq det. Arguments content {K} dim nq det. Arguments outflow {K} dim nfq det inv norm {W}.
Arguments euler_body {K} nq {V}. Arguments holds_old {K} nq {V}.

Section Core.
  Variable K : CRing.
  Add Ring KR120 : (cth K).
  Local Open Scope ring_K.
  Variables (dim nq : nat) (det : list (list K) -> K) (V : Type) (f : fe K) (rho : V -> K) (old : V -> list K).
  Hypothesis (WF : wf_fes [f]).
  Lemma mass_split r mm vars u0 u1 : euler_body nq f rho old r mm vars -> holds_old nq f old vars u0 ->
    (1 + 1) * mass_volume dim nq det [f] mm vars u1 u1 =
    r * (square dim nq det f (fun c q => rho (vars c q)) u1 - square dim nq det f (fun c q => rho (vars c q)) u0 + square dim nq det f (fun c q => rho (vars c q)) (vdiff K f u1 u0)).
  Proof using WF.
    intros EB HO. unfold square, mass_volume, over_cells. rewrite <- Sum_sub, <- Sum_add, <- !Sum_mul_l. apply Sum_ext. intros c Hc. rewrite <- Sum_sub, <- Sum_add, <- !Sum_mul_l. apply Sum_ext. intros q Hq.
    change (fe_at [f] 0) with f. unfold dot1. rewrite <- !Sum_mul_l, <- Sum_sub, <- Sum_add, <- !Sum_mul_l. apply Sum_ext. intros k Hk.
    rewrite (EB c q _ _ k Hc Hq Hk), (HO c q k Hc Hq Hk), (field_vdiff K f WF u1 u0 c q Hc). unfold sub1. rewrite get_tab by exact Hk. ring.
  Qed.
End Core.

Section Step.
  Variable K : CRing.
  Add Ring KR120b : (cth K).
  Local Open Scope ring_K.
  Lemma balance_ring (m t s x : K) : 0 = m + t + s -> (1 + 1) * m = x -> x + (1 + 1) * t + (1 + 1) * s = 0.
  Proof. intros H <-. replace ((1 + 1) * m + (1 + 1) * t + (1 + 1) * s) with ((1 + 1) * (m + t + s)) by ring. rewrite <- H. ring. Qed.
  Lemma sumf_zero {A} (l : list A) : sumf (fun _ => 0) l = (0 : K).
  Proof. induction l as [|x l IH]; [reflexivity|]. cbn [sumf]. rewrite IH. ring. Qed.
  Lemma rate_ring (r j d a b : K) : r * (j * (d * a) - j * (d * b)) = j * (r * (d * (a - b))). Proof. ring. Qed.
  Variable le : K -> K -> Prop.
  Hypothesis (OR : ordered le).
  Lemma decay_ring (r a b d t s : K) : (forall x, le 0 (r * x) -> le 0 x) -> le 0 d -> le 0 t -> le 0 s ->
    r * (a - b + d) + (1 + 1) * t + (1 + 1) * s = 0 -> le a b.
  Proof using OR.
    intros RP Hd Ht Hs E. apply (sub_le0 K le OR). assert (P : le 0 (b - a - d)).
    { apply RP. replace (r * (b - a - d)) with (t + t + (s + s) - (r * (a - b + d) + (1 + 1) * t + (1 + 1) * s)) by ring. rewrite E.
      replace (t + t + (s + s) - 0) with (t + t + (s + s)) by ring. pose proof (le_add _ _ OR _ _ _ _ (le_add _ _ OR _ _ _ _ Ht Ht) (le_add _ _ OR _ _ _ _ Hs Hs)) as Z.
      replace (0 + 0 + (0 + 0)) with (@c0 K) in Z by ring. exact Z. }
    pose proof (le_add _ _ OR _ _ _ _ P Hd) as Z. replace (0 + 0) with (@c0 K) in Z by ring. replace (b - a - d + d) with (b - a) in Z by ring. exact Z.
  Qed.
  Lemma square_nonneg dim nq det f d u : (forall x, le 0 (x * x)) -> (forall c q, c < length (fe_cells f) -> q < nq -> le 0 (JxW dim det f c q)) ->
    (forall c q, c < length (fe_cells f) -> q < nq -> le 0 (d c q)) -> le 0 (square dim nq det f d u).
  Proof using OR.
    intros SQ JP DP. unfold square, over_cells. apply (Sum_nonneg K le OR). intros c Hc. apply (Sum_nonneg K le OR). intros q Hq. apply (le_mul _ _ OR); [apply (JP c q Hc Hq)|].
    apply (le_mul _ _ OR); [apply (DP c q Hc Hq)|]. unfold dot1. apply (Sum_nonneg K le OR). intros k Hk. apply SQ.
  Qed.
End Step.

(** ** Theorems *)

(** The exact balance of one step: the weighted square of the field changes by what conduction and the boundaries dissipate, less the square
    of the increment (the damping of the scheme). *)
Theorem C120_balance :
  forall (K : CRing) dim nq nfq det inv norm (V W : Type) (f : fe K) (rho : V -> K) old (bnd : list (bdata K W)) tm vars r rows (u0 u1 : list K),
  wf_fes [f] -> (forall b, In b bnd -> wf_bdata [f] b) -> (forall b, In b bnd -> bp_universal (bd_ph b) = None) ->
  euler_step dim nq nfq det inv norm f rho old bnd tm vars r rows u0 u1 ->
  let sq := square dim nq det f (fun c q => rho (vars c q)) in
  cadd (cadd (cmul r (cadd (csub (sq u1) (sq u0)) (sq (vdiff K f u1 u0)))) (cmul (cadd c1 c1) (tensor_volume dim nq det inv [f] tm vars u1 u1)))
       (cmul (cadd c1 c1) (outflow dim nfq det inv norm f bnd u1)) = c0.
Proof.
  intros K dim nq nfq det inv norm V W f rho old bnd tm vars r rows u0 u1 WF WB PB (vw & ph & mm & vj & sj & xv & xs & pb & bs & TJ & TS & Hbs & PU & PE & PM & PT & EU & HO & EB & Q & Z) sq.
  pose proof (work_terms K dim nq nfq det inv norm V W f vw ph vars bnd vj sj xv xs pb bs WF WB TJ TS Hbs PU PE PB EB u1 u1) as E.
  rewrite (ndofs K dim nq nfq det inv norm V W f vw ph vars bnd vj sj xv xs pb bs WF WB TJ TS Hbs PU PE PB EB) in E.
  assert (VZ : virtual_work (length (fe_points f) * fe_vec f) u1 (get_res pb bs u1) = c0).
  { unfold virtual_work. apply Sum_zero. intros i Hi. destruct (in_dec Nat.eq_dec i rows) as [Hin|Hn].
    - rewrite (Z i Hin). apply zero_mul. - rewrite (Q i Hi Hn), kcomm. apply zero_mul. }
  rewrite VZ, PM in E. fold (stress_of ph) in E. rewrite PT in E. cbn [opt_term] in E.
  exact (balance_ring K _ _ _ _ E (mass_split K dim nq det V f rho old WF r mm vars u0 u1 EU HO)).
Qed.
Print Assumptions C120_balance.

(** Unconditional stability: with conduction and boundaries that do not feed the field, and non-negative weights, one step of any size never
    increases the weighted square; the law of conduction may be nonlinear. *)
Theorem C120_decay :
  forall (K : CRing) (le : K -> K -> Prop) dim nq nfq det inv norm (V W : Type) (f : fe K) (rho : V -> K) old (bnd : list (bdata K W)) tm vars r rows (u0 u1 : list K),
  ordered le -> (forall x : K, le c0 (cmul x x)) -> wf_fes [f] -> (forall b, In b bnd -> wf_bdata [f] b) -> (forall b, In b bnd -> bp_universal (bd_ph b) = None) ->
  (forall c q, c < length (fe_cells f) -> q < nq -> le c0 (JxW dim det f c q) /\ le c0 (rho (vars c q)) /\ forall G, le c0 (dot2 (fe_vec f) dim (tm G (vars c q)) G)) ->
  (forall b sm c e w q, In b bnd -> bp_map (bd_ph b) = Some sm -> In ((c, e), w) (combine (bd_inds b) (bd_vars b)) -> q < nfq ->
     le c0 (nanson dim det inv norm f c e q) /\ forall a x, le c0 (dot1 (fe_vec f) (sm a x (w q)) a)) ->
  (forall x, le c0 (cmul r x) -> le c0 x) ->
  euler_step dim nq nfq det inv norm f rho old bnd tm vars r rows u0 u1 ->
  le (square dim nq det f (fun c q => rho (vars c q)) u1) (square dim nq det f (fun c q => rho (vars c q)) u0).
Proof.
  intros K le dim nq nfq det inv norm V W f rho old bnd tm vars r rows u0 u1 OR SQ WF WB PB HV HS RP ST.
  pose proof (C120_balance K dim nq nfq det inv norm V W f rho old bnd tm vars r rows u0 u1 WF WB PB ST) as B. cbv zeta in B.
  apply (decay_ring K le OR) with (5 := B).
  - exact RP.
  - apply (square_nonneg K le OR); [exact SQ| |]; intros c q Hc Hq; apply (HV c q Hc Hq).
  - unfold tensor_volume, over_cells. apply (Sum_nonneg K le OR). intros c Hc. apply (Sum_nonneg K le OR). intros q Hq. destruct (HV c q Hc Hq) as (J & _ & T).
    apply (le_mul _ _ OR); [exact J|apply T].
  - unfold outflow. rewrite <- (sumf_zero K bnd).
    apply (sumf_le K le OR). intros b Hb. destruct (bp_map (bd_ph b)) as [sm|] eqn:E; [|apply (le_refl _ _ OR)]. cbn [opt_term]. unfold map_surface, over_faces.
    rewrite <- (sumf_zero K (combine (bd_inds b) (bd_vars b))).
    apply (sumf_le K le OR). intros [[c e] w] Hp. cbn [fst snd]. apply (Sum_nonneg K le OR). intros q Hq. destruct (HS b sm c e w q Hb E Hp Hq) as [N D]. apply (le_mul _ _ OR); [exact N|apply D].
Qed.
Print Assumptions C120_decay.

(** A whole run of such steps, of any sizes, with the density fixed. *)
Theorem C120_run :
  forall (K : CRing) (le : K -> K -> Prop) dim nq nfq det inv norm (V W : Type) (f : fe K) (rho : V -> K) old (d : nat -> nat -> K)
         (bnd : nat -> list (bdata K W)) (tm : nat -> tensor_map K V) (vars : nat -> nat -> nat -> V) (r : nat -> K) (rows : nat -> list nat) (u : nat -> list K) n,
  ordered le -> (forall x : K, le c0 (cmul x x)) -> wf_fes [f] ->
  (forall i, i < n ->
    (forall b, In b (bnd i) -> wf_bdata [f] b /\ bp_universal (bd_ph b) = None) /\
    (forall c q, c < length (fe_cells f) -> q < nq ->
       le c0 (JxW dim det f c q) /\ rho (vars i c q) = d c q /\ le c0 (d c q) /\ forall G, le c0 (dot2 (fe_vec f) dim (tm i G (vars i c q)) G)) /\
    (forall b sm c e w q, In b (bnd i) -> bp_map (bd_ph b) = Some sm -> In ((c, e), w) (combine (bd_inds b) (bd_vars b)) -> q < nfq ->
       le c0 (nanson dim det inv norm f c e q) /\ forall a x, le c0 (dot1 (fe_vec f) (sm a x (w q)) a)) /\
    (forall x, le c0 (cmul (r i) x) -> le c0 x) /\
    euler_step dim nq nfq det inv norm f rho old (bnd i) (tm i) (vars i) (r i) (rows i) (u i) (u (S i))) ->
  le (square dim nq det f d (u n)) (square dim nq det f d (u 0)).
Proof.
  intros K le dim nq nfq det inv norm V W f rho old d bnd tm vars r rows u n OR SQ WF H. induction n as [|n IH]; [apply (le_refl _ _ OR)|].
  apply (le_trans _ _ OR) with (square dim nq det f d (u n)); [|apply IH; intros i Hi; apply H; lia]. destruct (H n (Nat.lt_succ_diag_r n)) as (HB & HV & HS & RP & ST).
  assert (E : forall w, square dim nq det f d w = square dim nq det f (fun c q => rho (vars n c q)) w).
  { intros w. unfold square, over_cells. apply Sum_ext. intros c Hc. apply Sum_ext. intros q Hq. rewrite (proj1 (proj2 (HV c q Hc Hq))). reflexivity. }
  rewrite !E. apply (C120_decay K le dim nq nfq det inv norm V W f rho old (bnd n) (tm n) (vars n) (r n) (rows n) (u n) (u (S n)) OR SQ WF); [| | |exact HS|exact RP|exact ST].
  - intros b Hb. apply (HB b Hb). - intros b Hb. apply (HB b Hb).
  - intros c q Hc Hq. destruct (HV c q Hc Hq) as (J & Ed & P & T). rewrite Ed. repeat split; assumption.
Qed.
Print Assumptions C120_run.

(** Conservation: without supports, the weighted integral of each component changes only by the flux through the boundaries; insulated, not at
    all. *)
Theorem C120_content :
  forall (K : CRing) dim nq nfq det inv norm (V W : Type) (f : fe K) (rho : V -> K) old (bnd : list (bdata K W)) tm vars r (u0 u1 : list K) k,
  wf_fes [f] -> (forall b, In b bnd -> wf_bdata [f] b) -> (forall b, In b bnd -> bp_universal (bd_ph b) = None) ->
  unity K dim f -> (forall q, q < nq -> Sum (fe_nn f) (fe_sv f q) = c1) -> (forall g q, q < nfq -> Sum (fe_nn f) (fe_fsv f g q) = c1) ->
  euler_step dim nq nfq det inv norm f rho old bnd tm vars r [] u0 u1 -> k < fe_vec f ->
  let total := content dim nq det f (fun c q => rho (vars c q)) k in
  cadd (cmul r (csub (total u1) (total u0))) (surface_total dim nfq det inv norm f bnd u1 (fun c e q t => get t k)) = c0.
Proof.
  intros K dim nq nfq det inv norm V W f rho old bnd tm vars r u0 u1 k WF WB PB U SV SF (vw & ph & mm & vj & sj & xv & xs & pb & bs & TJ & TS & Hbs & PU & PE & PM & PT & EU & HO & EB & Q & _) Hk total.
  rewrite <- (ndofs K dim nq nfq det inv norm V W f vw ph vars bnd vj sj xv xs pb bs WF WB TJ TS Hbs PU PE PB EB) in Q.
  pose proof (C113_forces K dim nq nfq det inv norm V W f vw ph vars bnd vj sj xv xs pb bs u1 [] k WF WB TJ TS Hbs PU PE PB EB U SV SF Q Hk) as E.
  replace (Sum (length (fe_points f)) (fun a => reaction (fe_vec f) [] (get_res pb bs u1) a k)) with (@c0 K) in E by (symmetry; apply Sum_zero; reflexivity).
  rewrite E. f_equal. unfold body_total. rewrite PM. cbn [opt_term]. unfold total, content, over_cells. rewrite <- Sum_sub, <- Sum_mul_l. apply Sum_ext. intros c Hc.
  rewrite <- Sum_sub, <- Sum_mul_l. apply Sum_ext. intros q Hq. rewrite (EU c q _ _ k Hc Hq Hk), (HO c q k Hc Hq Hk). apply rate_ring.
Qed.
Print Assumptions C120_content.

(** ** Concrete case: two bars in a row, heat leaving at the right end; one step of size one from the field (1, 6) at the two quadrature
    points (the left ends of the bars). *)
Definition df_fe : fe ZK :=
  @Build_fe ZK 1 2 [[0]; [1]; [2]]%Z [[0; 1]; [1; 2]] (fun _ n => if n =? 0 then 1%Z else 0%Z) (fun _ n _ => if n =? 0 then (-1)%Z else 1%Z) (fun _ => 1%Z)
    (fun g _ n => if n =? (if g =? 0 then 0 else 1) then 1%Z else 0%Z) (fun _ _ n _ => if n =? 0 then (-1)%Z else 1%Z) (fun _ _ => 1%Z) (fun _ _ => 1%Z).
Definition df_tm : tensor_map ZK Z := fun G _ => [[get2 (K := ZK) G 0 0]].
Definition df_mm : mass_map ZK Z := fun a _ y => [(get (K := ZK) a 0 - y)%Z].
Definition df_sm : surface_map ZK Z := fun a _ y => [(y * get (K := ZK) a 0)%Z].
Definition df_ph : physics ZK Z := Build_physics ZK Z None None (Some df_mm) (Some df_tm) None None.
Definition df_bnd : list (bdata ZK Z) := [Build_bdata ZK Z [(1, 1)] (Build_bphysics ZK Z None None (Some df_sm)) [fun _ => 2%Z]].
Definition df_vars (c q : nat) : Z := nth c [1; 6]%Z 0%Z.
Definition df_build :=
  build (K := ZK) 1 1 1 st_det st_inv (fun _ => 1%Z) [df_fe] FULL df_ph df_vars df_bnd (fun _ _ => [0; 0; 0; 0]%Z) (fun _ _ => [0; 0; 0; 0]%Z)
    (vinp_of 1 st_det st_inv [df_fe] (fun c q => 0%Z) 0) (finp_of 1 st_det st_inv (fun _ => 1%Z) [df_fe] (fun _ => 0%Z) (0, 0)).
Example C120_example :
  wf_fes [df_fe] /\ (forall b, In b df_bnd -> wf_bdata [df_fe] b) /\ (forall x : ZK, (0 <= cmul x x)%Z) /\
  unity ZK 1 df_fe /\ (forall q, q < 1 -> Sum (K := ZK) 2 (fe_sv df_fe q) = 1%Z) /\ (forall g q, q < 1 -> Sum (K := ZK) 2 (fe_fsv df_fe g q) = 1%Z) /\
  (forall c q, c < 2 -> q < 1 -> (0 <= JxW (K := ZK) 1 st_det df_fe c q)%Z /\ forall G, (0 <= dot2 (K := ZK) 1 1 (df_tm G (df_vars c q)) G)%Z) /\
  (forall b sm c e w q, In b df_bnd -> bp_map (bd_ph b) = Some sm -> In ((c, e), w) (combine (bd_inds b) (bd_vars b)) -> q < 1 ->
     (0 <= nanson (K := ZK) 1 st_det st_inv (fun _ => 1%Z) df_fe c e q)%Z /\ forall a x, (0 <= dot1 (K := ZK) 1 (sm a x (w q)) a)%Z) /\
  euler_step (K := ZK) 1 1 1 st_det st_inv (fun _ => 1%Z) df_fe (fun _ => 1%Z) (fun y => [y]) df_bnd df_tm df_vars 1%Z [] [1; 6; 0]%Z [2; 3; 1]%Z /\
  map (square (K := ZK) 1 1 st_det df_fe (fun _ _ => 1%Z)) [[1; 6; 0]; [2; 3; 1]; vdiff ZK df_fe [2; 3; 1] [1; 6; 0]]%Z = [37; 13; 10]%Z /\
  tensor_volume (K := ZK) 1 1 st_det st_inv [df_fe] df_tm df_vars [2; 3; 1]%Z [2; 3; 1]%Z = 5%Z /\
  outflow (K := ZK) 1 1 st_det st_inv (fun _ => 1%Z) df_fe df_bnd [2; 3; 1]%Z = 2%Z /\
  map (content (K := ZK) 1 1 st_det df_fe (fun _ _ => 1%Z) 0) [[1; 6; 0]; [2; 3; 1]]%Z = [7; 5]%Z /\
  surface_total (K := ZK) 1 1 st_det st_inv (fun _ => 1%Z) df_fe df_bnd [2; 3; 1]%Z (fun c e q t => get (K := ZK) t 0) = 2%Z.
Proof.
  split. { intros f [<-|[]]. split; [reflexivity|]. intros c [<-|[<-|[]]]; (split; [reflexivity|]); cbn; intros n Hn; lia. }
  split. { intros b [<-|[]]. split; [reflexivity|]. intros cg [<-|[]]. cbn. lia. }
  split. { intros x. cbn [carrier ZK] in x. change (0 <= x * x)%Z. nia. }
  split. { intros q d. repeat split. }
  split. { intros q _. reflexivity. } split. { intros g q _. destruct g as [|g]; reflexivity. }
  split. { intros c q Hc Hq. assert (q = 0) as -> by lia. split; [destruct c as [|[|c]]; try lia; vm_compute; discriminate|].
           intros G. unfold df_tm. rewrite st_dot2. generalize (get2 (K := ZK) G 0 0 : Z). cbn [carrier ZK]. intros g. nia. }
  split. { intros b sm c e w q [<-|[]] [= <-] [[= <- <- <-]|[]] Hq. assert (q = 0) as -> by lia. split; [vm_compute; discriminate|].
           intros a x. unfold df_sm. rewrite st_dot1. generalize (get (K := ZK) a 0 : Z). cbn [carrier ZK]. intros g. nia. }
  split. { exists FULL, df_ph, df_mm. do 6 eexists. split; [|split; [|split; [|split; [|split; [|split; [|split; [|split; [|split; [|split; [exact (eq_refl df_build : df_build = Some _)|split]]]]]]]]]]; try reflexivity.
    - exact (le_n 1).
    - intros c q a x k Hc Hq Hk. change (fe_vec df_fe) with 1 in *. assert (k = 0) as -> by lia. unfold df_mm. generalize (df_vars c q) (get (K := ZK) a 0 : Z). cbn [carrier ZK]. intros y g.
      match goal with |- @eq _ ?l ?r => change (@eq Z (g - y)%Z (1 * (1 * (g - y)))%Z) end. lia.
    - intros c q k Hc Hq Hk. change (fe_vec df_fe) with 1 in *. change (length (fe_cells df_fe)) with 2 in *. assert (k = 0) as -> by lia. assert (q = 0) as -> by lia. destruct c as [|[|c]]; try lia; vm_compute; reflexivity.
    - intros i Hi _. change (i < 3) in Hi. do 3 (destruct i as [|i]; [vm_compute; reflexivity|]). lia.
    - intros i []. }
  repeat split; vm_compute; reflexivity.
Qed.
