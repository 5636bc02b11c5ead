(** C93: the Helmholtz filter. *)
From Coq Require Import Reals List Arith Lia Lra Bool String.
From Verif Require Import Base Csr_Model Assembly_Model Assembly_Spec Dof_Model Dof_Spec Kernel_Model Kernel_Spec Kernel_Proofs Kernel_Props Tmc_Model Tmc_Props Helmholtz_Model.
From Verif Require Params_Model.
Import ListNotations.
Local Open Scope R_scope.
Local Open Scope list_scope.

(** ** Specification: fields, integrals, and the filter equation *)
Section Spec.
Variables (dim nq : nat) (det : list (list R) -> R) (inv : list (list R) -> list (list R)) (f : fe RK).
(** Value and gradient of a nodal field at a quadrature point, and the integral over the mesh. *)
Definition value (u : list R) (c q : nat) : R := rs (fe_nn f) (fun n => fe_sv f q n * nth (node_of f c n) u 0).
Definition slope (u : list R) (c q d : nat) : R := rs (fe_nn f) (fun n => shape_grad (K := RK) dim inv f c q n d * nth (node_of f c n) u 0).
Definition integral (g : nat -> nat -> R) : R := rs (List.length (fe_cells f)) (fun c => rs nq (fun q => JxW (K := RK) dim det f c q * g c q)).
Definition mm (u v : list R) : R := integral (fun c q => value u c q * value v c q).
Definition gg (u v : list R) : R := integral (fun c q => rs dim (fun d => slope u c q d * slope v c q d)).
(** A usable mesh: cells well formed, one scalar unknown, shape functions sum to one, positive
    integration weights. *)
Record usable : Prop := {
  us_cells : forall c, In c (fe_cells f) -> List.length c = fe_nn f /\ forall n, In n c -> (n < List.length (fe_points f))%nat;
  us_scalar : fe_vec f = 1%nat;
  us_one : forall q, (q < nq)%nat -> rs (fe_nn f) (fe_sv f q) = 1;
  us_flat : forall q d, (d < dim)%nat -> rs (fe_nn f) (fun n => fe_sgref f q n d) = 0;
  us_pos : forall c q, (c < List.length (fe_cells f))%nat -> (q < nq)%nat -> 0 < JxW (K := RK) dim det f c q }.
(** The quadrature sees every nodal field. *)
Definition seen : Prop := forall u, (forall c q, (c < List.length (fe_cells f))%nat -> (q < nq)%nat -> value u c q = 0) ->
  forall i, (i < List.length (fe_points f))%nat -> nth i u 0 = 0.
End Spec.

Lemma Sum_rs n (g : nat -> R) : Sum (K := RK) n g = rs n g.
Proof. induction n as [|n IH]; [reflexivity|]. rewrite Sum_S, IH. reflexivity. Qed.

Lemma getR (l : list R) i : get (K := RK) l i = nth i l 0.
Proof. reflexivity. Qed.
Ltac rring := match goal with |- @eq _ ?a ?b => change (@eq R a b) end; cbn [cadd cmul csub copp c0 c1 RK carrier]; ring.
Section Filter.
Variables (dim nq : nat) (det : list (list R) -> R) (inv : list (list R) -> list (list R)) (f : fe RK).
Hypothesis U : usable dim nq det f.
Local Notation Value := (value f).
Local Notation Slope := (slope dim inv f).
Local Notation Int := (integral dim nq det f).
Local Notation M := (mm dim nq det f).
Local Notation G := (gg dim nq det inv f).
Local Notation N := (List.length (fe_points f)).

Lemma int_ext g h : (forall c q, (c < List.length (fe_cells f))%nat -> (q < nq)%nat -> g c q = h c q) -> Int g = Int h.
Proof using Type. intros E. unfold integral. apply rs_ext. intros c Hc. apply rs_ext. intros q Hq. rewrite E by assumption. reflexivity. Qed.
Lemma int_plus g h : Int (fun c q => g c q + h c q) = Int g + Int h.
Proof using Type. unfold integral. rewrite <- rs_plus. apply rs_ext. intros c _. rewrite <- rs_plus. apply rs_ext. intros q _. ring. Qed.
Lemma int_scale a g : Int (fun c q => a * g c q) = a * Int g.
Proof using Type. unfold integral. rewrite <- rs_scale. apply rs_ext. intros c _. rewrite <- rs_scale. apply rs_ext. intros q _. ring. Qed.
Lemma int_nonneg g : (forall c q, 0 <= g c q) -> 0 <= Int g.
Proof using U. intros H. unfold integral. apply rs_nonneg. intros c Hc. apply rs_nonneg. intros q Hq. apply Rmult_le_pos; [left; apply (us_pos _ _ _ _ U); assumption|apply H]. Qed.
Lemma int_zero g : (forall c q, 0 <= g c q) -> Int g = 0 -> forall c q, (c < List.length (fe_cells f))%nat -> (q < nq)%nat -> g c q = 0.
Proof using U.
  intros H Z c q Hc Hq. pose proof (us_pos _ _ _ _ U) as P.
  assert (A : rs nq (fun q => JxW (K := RK) dim det f c q * g c q) = 0).
  { apply (rs_zero_inv (List.length (fe_cells f)) (fun c => rs nq (fun q => JxW (K := RK) dim det f c q * g c q))); [|exact Z|exact Hc].
    intros c' Hc'. apply rs_nonneg. intros q' Hq'. apply Rmult_le_pos; [left; apply P; assumption|apply H]. }
  assert (B : JxW (K := RK) dim det f c q * g c q = 0).
  { apply (rs_zero_inv nq (fun q => JxW (K := RK) dim det f c q * g c q)); [|exact A|exact Hq].
    intros q' Hq'. apply Rmult_le_pos; [left; apply P; assumption|apply H]. }
  specialize (P c q Hc Hq). apply Rmult_integral in B. destruct B; [lra|assumption].
Qed.
Lemma flatR c q d : rs (fe_nn f) (fun n => shape_grad (K := RK) dim inv f c q n d) = 0.
Proof using U.
  rewrite <- Sum_rs. refine (shape_grad_unity RK dim inv f c q d _). intros q' e' He'. rewrite Sum_rs. apply (us_flat _ _ _ _ U q' e' He').
Qed.
Lemma wf1 : wf_fes [f].
Proof using U. intros g [<-|[]]. split; [reflexivity|]. intros c Hc. exact (us_cells _ _ _ _ U c Hc). Qed.
Lemma node_lt c n : (c < List.length (fe_cells f))%nat -> (n < fe_nn f)%nat -> (node_of f c n < N)%nat.
Proof using U.
  intros Hc Hn. destruct (us_cells _ _ _ _ U (nth c (fe_cells f) []) (nth_In _ _ Hc)) as [A B]. apply B. unfold node_of. apply nth_In. rewrite A. exact Hn.
Qed.
Lemma r2_quad r c q : (c < List.length (fe_cells f))%nat -> (q < nq)%nat -> at_quad f (repeat (r ^ 2) N) c q = r ^ 2.
Proof using U.
  intros Hc Hq. unfold at_quad. rewrite Sum_rs. rewrite (rs_ext _ _ (fun n => fe_sv f q n * r ^ 2)).
  - rewrite rs_scale_r. change (fun n => fe_sv f q n) with (fe_sv f q). rewrite (us_one _ _ _ _ U q Hq). ring.
  - intros n Hn. f_equal. unfold get. rewrite (nth_indep _ _ (r ^ 2)) by (rewrite repeat_length; apply node_lt; assumption). apply nth_repeat.
Qed.

Lemma field0 u c q : (c < List.length (fe_cells f))%nat -> field_at [f] 0 u c q = [Value u c q].
Proof using U.
  intros Hc. unfold field_at. cbn [fe_at nth]. rewrite (us_scalar _ _ _ _ U). unfold tab. cbn [seq map]. f_equal. rewrite Sum_rs. unfold value. apply rs_ext. intros n Hn.
  unfold nodal. rewrite dof_single, (us_scalar _ _ _ _ U). cbn [fe_at nth]. unfold get. cbn. f_equal. f_equal. lia.
Qed.
Lemma grad0 u c q : (c < List.length (fe_cells f))%nat -> grad_at (K := RK) dim inv [f] 0 u c q = [tab dim (Slope u c q)].
Proof using U.
  intros Hc. unfold grad_at. cbn [fe_at nth]. rewrite (us_scalar _ _ _ _ U). unfold tab at 1. cbn [seq map]. f_equal. apply tab_ext. intros d Hd. rewrite Sum_rs. unfold slope. apply rs_ext. intros n Hn.
  unfold nodal. rewrite dof_single, (us_scalar _ _ _ _ U). cbn [fe_at nth]. unfold get. cbn. f_equal. f_equal. lia.
Qed.
Variables (vw : view) (vj : list R -> vinp RK (R * R) -> list R) (sj : list R -> finp RK unit -> list R) (xv : vinp RK (R * R)) (xs : finp RK unit).
Local Notation Filtered := (filtered dim nq det inv f vw vj sj xv xs).
Lemma num_n r s pb : filter_problem dim nq det inv f vw vj sj xv xs r s = Some pb -> pr_n pb = N.
Proof using U.
  intros E. unfold filter_problem, build in E. cbn in E. injection E as <-. cbn [pr_n]. unfold total_dofs, layout_of. cbn. rewrite (us_scalar _ _ _ _ U). lia.
Qed.
Lemma problem_exists r s : exists pb, filter_problem dim nq det inv f vw vj sj xv xs r s = Some pb.
Proof using Type. unfold filter_problem, build. cbn. eexists. reflexivity. Qed.

Hypothesis TJ : forall u x, List.length (vj u x) = (num_local [f] * num_local [f])%nat.
Hypothesis TS : forall u x, List.length (sj u x) = (num_local [f] * num_local [f])%nat.
(** The equations of the filter, tested with any [v]. *)
Lemma equation bs r s pb u v : (0 < bs)%nat -> filter_problem dim nq det inv f vw vj sj xv xs r s = Some pb ->
  virtual_work (K := RK) N v (get_res pb bs u) = M u v + r ^ 2 * G u v - M s v.
Proof using U TJ TS.
  intros Hb E. rewrite <- (num_n r s pb E).
  assert (C := C63_composition RK dim nq 0 det inv (fun _ => 0) (R * R) unit [f] vw helmholtz (filter_vars f r s) [] vj sj xv xs pb bs u v wf1).
  cbn [List.length] in C. specialize (C Nat.lt_0_1 (fun b H => match H with end)).
  rewrite C; clear C; try assumption.
  2:{ split; [intros k [H|H]; discriminate H|intros b k []]. }
  unfold volume_terms. cbn [helmholtz ph_universal ph_mass ph_tensor ph_extra ph_energy_grad opt_term List.length Nat.ltb Nat.leb sumf].
  assert (A : mass_volume (K := RK) dim nq det [f] mass (filter_vars f r s) u v = M u v - M s v).
  { unfold mass_volume, over_cells, mm. transitivity (Int (fun c q => (Value u c q - Value s c q) * Value v c q)).
    - unfold num_cells. cbn [fe_at nth]. rewrite Sum_rs. unfold integral. apply rs_ext. intros c Hc. rewrite Sum_rs. apply rs_ext. intros q Hq.
      rewrite !field0 by exact Hc. rewrite (us_scalar _ _ _ _ U). unfold dot1. rewrite Sum_rs. cbn [rs]. unfold mass, filter_vars, get. cbn [map nth fst]. cbn [cadd cmul RK].
      replace (at_quad f s c q) with (Value s c q); [rring|]. unfold at_quad, value. rewrite Sum_rs. reflexivity.
    - rewrite (int_ext _ (fun c q => Value u c q * Value v c q + -1 * (Value s c q * Value v c q))) by (intros; ring). rewrite int_plus, int_scale. unfold mm. rring. }
  assert (B : tensor_volume (K := RK) dim nq det inv [f] tensor (filter_vars f r s) u v = r ^ 2 * G u v).
  { unfold tensor_volume, over_cells, gg. rewrite <- int_scale. unfold num_cells. cbn [fe_at nth]. rewrite Sum_rs. unfold integral. apply rs_ext. intros c Hc. rewrite Sum_rs. apply rs_ext. intros q Hq.
    rewrite !grad0 by exact Hc. rewrite (us_scalar _ _ _ _ U). unfold dot2. rewrite Sum_rs. cbn [rs]. rewrite Sum_rs. cbn [cadd cmul RK]. rewrite Rplus_0_l. f_equal. rewrite <- rs_scale. apply rs_ext. intros d Hd.
    unfold tensor, filter_vars, get2. cbn [map nth snd fst]. rewrite (r2_quad r c q Hc Hq). rewrite (get_tab RK) by exact Hd.
    unfold get. unfold tab. rewrite map_map. change (map (fun x => r ^ 2 * Slope u c q x) (seq 0 dim)) with (tab dim (fun x => r ^ 2 * Slope u c q x)). rewrite nth_tab by exact Hd. rring. }
  cbn [cadd RK]. change (@cadd RK) with Rplus. rewrite A, B. change (1 <? 1)%nat with false. cbn iota. rring.
Qed.

(** Bilinearity. *)
Definition lin (a : R) (u : list R) (b : R) (v : list R) : list R := map (fun i => a * nth i u 0 + b * nth i v 0) (seq 0 N).
Lemma nth_lin a u b v i : (i < N)%nat -> nth i (lin a u b v) 0 = a * nth i u 0 + b * nth i v 0.
Proof using Type.
  intros H. unfold lin. change (map ?g (seq 0 ?n)) with (tab n g). rewrite nth_tab by exact H. reflexivity.
Qed.
Lemma value_lin a u b v c q : (c < List.length (fe_cells f))%nat -> Value (lin a u b v) c q = a * Value u c q + b * Value v c q.
Proof using U.
  intros Hc. unfold value. rewrite <- !rs_scale, <- rs_plus. apply rs_ext. intros n Hn. rewrite nth_lin by (apply node_lt; assumption). rring.
Qed.
Lemma slope_lin a u b v c q d : (c < List.length (fe_cells f))%nat -> Slope (lin a u b v) c q d = a * Slope u c q d + b * Slope v c q d.
Proof using U.
  intros Hc. unfold slope. rewrite <- !rs_scale, <- rs_plus. apply rs_ext. intros n Hn. rewrite nth_lin by (apply node_lt; assumption). rring.
Qed.
Lemma M_sym u v : M u v = M v u.
Proof using Type. unfold mm. apply int_ext. intros. ring. Qed.
Lemma G_sym u v : G u v = G v u.
Proof using Type. unfold gg. apply int_ext. intros. apply rs_ext. intros. ring. Qed.
Lemma M_lin a u b v w : M (lin a u b v) w = a * M u w + b * M v w.
Proof using U.
  unfold mm. rewrite <- !int_scale, <- int_plus. apply int_ext. intros c q Hc Hq. rewrite value_lin by exact Hc. ring.
Qed.
Lemma G_lin a u b v w : G (lin a u b v) w = a * G u w + b * G v w.
Proof using U.
  unfold gg. rewrite <- !int_scale, <- int_plus. apply int_ext. intros c q Hc Hq. rewrite <- !rs_scale, <- rs_plus. apply rs_ext. intros d _. rewrite !slope_lin by exact Hc. ring.
Qed.
Lemma value_ext u v c q : (forall i, (i < N)%nat -> nth i u 0 = nth i v 0) -> (c < List.length (fe_cells f))%nat -> Value u c q = Value v c q.
Proof using U. intros E Hc. unfold value. apply rs_ext. intros n Hn. rewrite E by (apply node_lt; assumption). reflexivity. Qed.
Lemma slope_ext u v c q d : (forall i, (i < N)%nat -> nth i u 0 = nth i v 0) -> (c < List.length (fe_cells f))%nat -> Slope u c q d = Slope v c q d.
Proof using U. intros E Hc. unfold slope. apply rs_ext. intros n Hn. rewrite E by (apply node_lt; assumption). reflexivity. Qed.
Lemma M_nonneg u : 0 <= M u u.
Proof using U. unfold mm. apply int_nonneg. intros. apply Rle_0_sqr. Qed.
Lemma G_nonneg u : 0 <= G u u.
Proof using U. unfold gg. apply int_nonneg. intros. apply rs_nonneg. intros. apply Rle_0_sqr. Qed.

(** What the solve gives, tested with any member of the trial space. *)
Definition ap (P : prolongation) (y : nat -> R) (v : list R) : Prop := forall i, (i < N)%nat -> nth i v 0 = prolong P y i.
Definition tested (P : prolongation) (e y : nat -> R) : R := rs (size P N) (fun j => y j * e j).
Lemma restrict_test P r y v n : n = N -> ap P y v -> virtual_work (K := RK) n v r = rs (size P N) (fun j => y j * restrict P N (get (K := RK) r) j).
Proof using Type.
  intros -> A. unfold virtual_work. rewrite Sum_rs. destruct P as [[m P]|]; cbn [size restrict].
  - rewrite (rs_ext _ _ (fun i => rs m (fun j => P i j * y j * get (K := RK) r i))).
    + rewrite rs_swap. apply rs_ext. intros j Hj. rewrite Sum_rs, <- rs_scale. apply rs_ext. intros i Hi. rring.
    + intros i Hi. rewrite (getR v i), (A i Hi). cbn [prolong]. rewrite Sum_rs, rs_scale_r. reflexivity.
  - apply rs_ext. intros i Hi. rewrite (getR v i), (A i Hi). reflexivity.
Qed.
Lemma filtered_test bs P r s e u y v : (0 < bs)%nat -> Filtered bs P r s e u -> ap P y v -> M u v + r ^ 2 * G u v - M s v = tested P e y.
Proof using U TJ TS.
  intros Hb (pb & w & E & _ & Q) A. rewrite <- (equation bs r s pb u v Hb E). pose proof (num_n r s pb E) as HN. rewrite HN in Q.
  rewrite (restrict_test P _ y v N eq_refl A). unfold tested. apply rs_ext. intros j Hj. rewrite (Q j Hj). reflexivity.
Qed.
Lemma filtered_ap bs P r s e u : Filtered bs P r s e u -> exists w, ap P w u.
Proof using U.
  intros (pb & w & E & A & _). exists w. intros i Hi. rewrite <- (A i); [reflexivity|]. rewrite (num_n r s pb E). exact Hi.
Qed.
(** Conversely, the equations for unit tests are the equations. *)
Lemma filtered_intro bs P r s e u w : (0 < bs)%nat -> ap P w u ->
  (forall y v, ap P y v -> M u v + r ^ 2 * G u v - M s v = tested P e y) -> Filtered bs P r s e u.
Proof using U TJ TS.
  intros Hb A T. destruct (problem_exists r s) as [pb E]. pose proof (num_n r s pb E) as HN. exists pb, w. split; [exact E|]. rewrite HN. split; [exact A|].
  intros j Hj. set (y := fun k => if (k =? j)%nat then 1 else 0). set (v := map (prolong P y) (seq 0 N)).
  assert (V : ap P y v). { intros i Hi. unfold v. change (map ?g (seq 0 ?n)) with (tab n g). rewrite nth_tab by exact Hi. reflexivity. }
  specialize (T y v V). rewrite <- (equation bs r s pb u v Hb E), (restrict_test P _ y v N eq_refl V) in T. unfold tested, y in T.
  rewrite !(rs_delta (size P N) j) in T by exact Hj. exact T.
Qed.
End Filter.

(** ** The theorems *)
Definition ones (P : prolongation) (n : nat) : Prop := forall i, (i < n)%nat -> prolong P (fun _ => 1) i = 1.
Definition shapes (f : fe RK) (vj : list R -> vinp RK (R * R) -> list R) (sj : list R -> finp RK unit -> list R) : Prop :=
  (forall u x, List.length (vj u x) = (num_local [f] * num_local [f])%nat) /\ (forall u x, List.length (sj u x) = (num_local [f] * num_local [f])%nat).

(** The result is the discrete solution of rho~ - r^2 lap rho~ = rho: with [e = 0] (exact solve), for
    every test field of the trial space. *)
Theorem C93_equation : forall dim nq det inv f vw vj sj xv xs bs P r s e u,
  usable dim nq det f -> shapes f vj sj -> (0 < bs)%nat ->
  filtered dim nq det inv f vw vj sj xv xs bs P r s e u <->
  (exists w, ap f P w u) /\
  forall y v, ap f P y v ->
    integral dim nq det f (fun c q => value f u c q * value f v c q) +
    r ^ 2 * integral dim nq det f (fun c q => rs dim (fun d => slope dim inv f u c q d * slope dim inv f v c q d)) -
    integral dim nq det f (fun c q => value f s c q * value f v c q) = tested f P e y.
Proof.
  intros dim nq det inv f vw vj sj xv xs bs P r s e u Us [TJ TS] Hb. split.
  - intros F. split; [eapply filtered_ap; eassumption|]. intros y v A. exact (filtered_test dim nq det inv f Us vw vj sj xv xs TJ TS bs P r s e u y v Hb F A).
  - intros ((w & A) & T). exact (filtered_intro dim nq det inv f Us vw vj sj xv xs TJ TS bs P r s e u w Hb A T).
Qed.
Print Assumptions C93_equation.

(** The filter keeps the volume: exactly up to the sum of the solver's leftover residual. *)
Theorem C93_volume : forall dim nq det inv f vw vj sj xv xs bs P r s e u,
  usable dim nq det f -> shapes f vj sj -> (0 < bs)%nat -> ones P (List.length (fe_points f)) ->
  filtered dim nq det inv f vw vj sj xv xs bs P r s e u ->
  integral dim nq det f (value f u) = integral dim nq det f (value f s) + rs (size P (List.length (fe_points f))) e.
Proof.
  intros dim nq det inv f vw vj sj xv xs bs P r s e u Us Sh Hb O F.
  apply (C93_equation dim nq det inv f vw vj sj xv xs bs P r s e u Us Sh Hb) in F. destruct F as (_ & T).
  set (v := repeat 1 (List.length (fe_points f))).
  assert (V1 : forall i, (i < List.length (fe_points f))%nat -> nth i v 0 = 1).
  { intros i Hi. unfold v. rewrite (nth_indep _ _ 1) by (rewrite repeat_length; exact Hi). apply nth_repeat. }
  assert (A : ap f P (fun _ => 1) v). { intros i Hi. rewrite V1, O by exact Hi. reflexivity. }
  specialize (T _ v A). unfold tested in T. rewrite (rs_ext (size P _) _ e) in T by (intros; ring).
  assert (VV : forall c q, (c < List.length (fe_cells f))%nat -> (q < nq)%nat -> value f v c q = 1).
  { intros c q Hc Hq. unfold value. rewrite (rs_ext _ _ (fe_sv f q)); [apply (us_one _ _ _ _ Us q Hq)|]. intros n Hn. rewrite V1 by (eapply node_lt; eassumption). rring. }
  assert (VS : forall c q d, (c < List.length (fe_cells f))%nat -> (d < dim)%nat -> slope dim inv f v c q d = 0).
  { intros c q d Hc Hd. unfold slope. rewrite (rs_ext _ _ (fun n => shape_grad (K := RK) dim inv f c q n d)) by (intros n Hn; rewrite V1 by (eapply node_lt; eassumption); rring).
    apply (flatR dim nq det inv f Us). }
  rewrite (int_ext dim nq det f _ (value f u)) in T by (intros c q Hc Hq; rewrite VV by assumption; ring).
  rewrite (int_ext dim nq det f (fun c q => value f s c q * value f v c q) (value f s)) in T by (intros c q Hc Hq; rewrite VV by assumption; ring).
  rewrite (int_ext dim nq det f (fun c q => rs dim _) (fun _ _ => 0 * 0)) in T.
  2:{ intros c q Hc Hq. rewrite rs_zero; [ring|]. intros d Hd. rewrite VS by assumption. ring. }
  rewrite int_scale in T. lra.
Qed.
Print Assumptions C93_volume.

(** One density has one filtered density; filtering is linear, self-adjoint for the mesh integral,
    never increases the mean square, keeps constants, and with zero radius does nothing. *)
Theorem C93_filter : forall dim nq det inv f vw vj sj xv xs bs P r,
  usable dim nq det f -> shapes f vj sj -> (0 < bs)%nat -> seen nq f ->
  let F s u := filtered dim nq det inv f vw vj sj xv xs bs P r s (fun _ => 0) u in
  let n := List.length (fe_points f) in
  (forall s u u', F s u -> F s u' -> forall i, (i < n)%nat -> nth i u 0 = nth i u' 0) /\
  (forall a b s t u v, F s u -> F t v -> F (lin f a s b t) (lin f a u b v)) /\
  (forall s t u v, F s u -> F t v -> integral dim nq det f (fun c q => value f u c q * value f t c q) = integral dim nq det f (fun c q => value f s c q * value f v c q)) /\
  (forall s u, F s u ->
     integral dim nq det f (fun c q => (value f u c q)²) + 2 * r ^ 2 * integral dim nq det f (fun c q => rs dim (fun d => (slope dim inv f u c q d)²))
     <= integral dim nq det f (fun c q => (value f s c q)²)) /\
  (forall s u k, ones P n -> (forall i, (i < n)%nat -> nth i s 0 = k) -> F s u -> forall i, (i < n)%nat -> nth i u 0 = k) /\
  (forall s u, P = None -> r = 0 -> F s u -> forall i, (i < n)%nat -> nth i u 0 = nth i s 0).
Proof.
  intros dim nq det inv f vw vj sj xv xs bs P r Us Sh Hb Se F n.
  assert (EQ : forall s u, F s u <-> (exists w, ap f P w u) /\ forall y v, ap f P y v -> mm dim nq det f u v + r ^ 2 * gg dim nq det inv f u v - mm dim nq det f s v = 0).
  { intros s u. unfold F. rewrite (C93_equation dim nq det inv f vw vj sj xv xs bs P r s (fun _ => 0) u Us Sh Hb).
    split; intros (A & T); (split; [exact A|]); intros y v V; specialize (T y v V); [|unfold tested; rewrite rs_zero by (intros; ring); exact T].
    unfold tested in T. rewrite rs_zero in T by (intros; ring). exact T. }
  assert (R2 : 0 <= r ^ 2) by apply pow2_ge_0.
  assert (PL : forall a b u v y z, ap f P y u -> ap f P z v -> ap f P (fun j => a * y j + b * z j) (lin f a u b v)).
  { intros a b u v y z A B i Hi. rewrite nth_lin by exact Hi. rewrite (A i Hi), (B i Hi). destruct P as [[m p]|]; cbn [prolong]; [|reflexivity].
    rewrite !Sum_rs, <- !rs_scale, <- rs_plus. apply rs_ext. intros j _. ring. }
  assert (LIN : forall a b s t u v, F s u -> F t v -> F (lin f a s b t) (lin f a u b v)).
  { intros a b s t u v H1 H2. apply EQ in H1, H2. apply EQ. destruct H1 as ((y & A) & T1), H2 as ((z & B) & T2).
    split; [exists (fun j => a * y j + b * z j); apply PL; assumption|]. intros y' v' V. specialize (T1 y' v' V). specialize (T2 y' v' V).
    rewrite (M_lin dim nq det f Us), (G_lin dim nq det inv f Us), (M_lin dim nq det f Us).
    replace (a * mm dim nq det f u v' + b * mm dim nq det f v v' + r ^ 2 * (a * gg dim nq det inv f u v' + b * gg dim nq det inv f v v') - (a * mm dim nq det f s v' + b * mm dim nq det f t v'))
      with (a * (mm dim nq det f u v' + r ^ 2 * gg dim nq det inv f u v' - mm dim nq det f s v') + b * (mm dim nq det f v v' + r ^ 2 * gg dim nq det inv f v v' - mm dim nq det f t v')) by ring.
    rewrite T1, T2. ring. }
  assert (NIL : forall u, mm dim nq det f u u = 0 -> forall i, (i < n)%nat -> nth i u 0 = 0).
  { intros u Z. apply Se. intros c q Hc Hq.
    assert (H := int_zero dim nq det f Us (fun c q => value f u c q * value f u c q) (fun c q => Rle_0_sqr _) Z c q Hc Hq).
    apply Rmult_integral in H. destruct H; assumption. }
  assert (BOUND : forall s u, F s u -> mm dim nq det f u u + 2 * r ^ 2 * gg dim nq det inv f u u <= mm dim nq det f s s).
  { intros s u H. apply EQ in H. destruct H as ((y & A) & T). specialize (T y u A).
    pose proof (M_nonneg dim nq det f Us (lin f 1 u (-1) s)) as Q. rewrite (M_lin dim nq det f Us) in Q.
    rewrite !(M_sym dim nq det f _ (lin f 1 u (-1) s)), !(M_lin dim nq det f Us) in Q. rewrite (M_sym dim nq det f u s) in Q. lra. }
  assert (UNI : forall s u u', F s u -> F s u' -> forall i, (i < n)%nat -> nth i u 0 = nth i u' 0).
  { intros s u u' H1 H2. pose proof (LIN 1 (-1) s s u u' H1 H2) as H. apply EQ in H. destruct H as ((y & A) & T). specialize (T y _ A).
    set (d := lin f 1 u (-1) u') in *. rewrite (M_lin dim nq det f Us) in T.
    pose proof (M_nonneg dim nq det f Us d). pose proof (Rmult_le_pos _ _ R2 (G_nonneg dim nq det inv f Us d)).
    intros i Hi. assert (Z := NIL d ltac:(lra) i Hi). unfold d in Z. rewrite nth_lin in Z by exact Hi. lra. }
  split; [exact UNI|]. split; [exact LIN|]. split; [|split; [|split]].
  - intros s t u v H1 H2. apply EQ in H1, H2. destruct H1 as ((y & A) & T1), H2 as ((z & B) & T2). specialize (T1 z v B). specialize (T2 y u A).
    change (mm dim nq det f u t = mm dim nq det f s v). rewrite (M_sym dim nq det f v u), (G_sym dim nq det inv f v u), (M_sym dim nq det f t u) in T2. lra.
  - intros s u H. exact (BOUND s u H).
  - intros s u k O Hs H.
    assert (HF : F s s); [|apply EQ in H; intros i Hi; rewrite <- (Hs i Hi); apply (UNI s u s); [apply EQ; exact H|exact HF|exact Hi]].
    apply EQ. split.
    + exists (fun _ => k). intros i Hi. rewrite (Hs i Hi). specialize (O i Hi). destruct P as [[m p]|]; cbn [prolong] in *; [|reflexivity].
      rewrite Sum_rs in *. rewrite (rs_ext m _ (fun j => k * (p i j * 1))) by (intros; ring). rewrite rs_scale, O. ring.
    + intros y v V. replace (gg dim nq det inv f s v) with 0; [ring|]. unfold gg. symmetry.
      rewrite (int_ext dim nq det f _ (fun _ _ => 0 * 0)); [rewrite int_scale; ring|]. intros c q Hc Hq. rewrite rs_zero; [ring|]. intros d Hd.
      replace (slope dim inv f s c q d) with 0; [ring|]. symmetry. unfold slope.
      rewrite (rs_ext _ _ (fun n => shape_grad (K := RK) dim inv f c q n d * k)) by (intros m Hm; rewrite Hs by (eapply node_lt; eassumption); reflexivity).
      rewrite rs_scale_r, (flatR dim nq det inv f Us). ring.
  - intros s u -> -> H. apply EQ in H. destruct H as (_ & T).
    assert (A : ap f None (fun i => nth i (lin f 1 u (-1) s) 0) (lin f 1 u (-1) s)) by (intros i Hi; reflexivity).
    specialize (T _ _ A). set (d := lin f 1 u (-1) s) in *.
    assert (Z : mm dim nq det f d d = 0). { unfold d at 1. rewrite (M_lin dim nq det f Us). rewrite pow_ne_zero in T by lia. lra. }
    intros i Hi. assert (Z' := NIL d Z i Hi). unfold d in Z'. rewrite nth_lin in Z' by exact Hi. lra.
Qed.
Print Assumptions C93_filter.

(** Only meshes of linear triangles, bilinear quadrilaterals, linear tetrahedra and trilinear
    hexahedra are recognised; a four-node cell in space is always taken for a tetrahedron. *)
Theorem C93_element_type : forall coords npc, let '(t, dim) := element_type coords npc in
  (coords = 2%nat -> dim = 2%nat /\ (t = "QUAD4"%string <-> npc = 4%nat) /\ (t = "TRI3"%string <-> npc <> 4%nat)) /\
  (coords <> 2%nat -> dim = 3%nat /\ (t = "HEX8"%string <-> npc = 8%nat) /\ (t = "TET4"%string <-> npc <> 8%nat)).
Proof.
  intros coords npc. unfold element_type. destruct (Nat.eqb_spec coords 2) as [E|E].
  - split; [|contradiction]. intros _. destruct (Nat.eqb_spec npc 4) as [H|H]; (split; [reflexivity|]); split; split; intros Q; try discriminate; try contradiction; auto.
  - split; [contradiction|]. intros _. destruct (Nat.eqb_spec npc 8) as [H|H]; (split; [reflexivity|]); split; split; intros Q; try discriminate; try contradiction; auto.
Qed.
Print Assumptions C93_element_type.

(** ** An obtuse triangle: hypotheses hold, and the filter does not keep densities in [0, 1] *)
Definition tri_sv (q n : nat) : R := match q, n with 0%nat, 0%nat | 0%nat, 1%nat | 1%nat, 1%nat | 1%nat, 2%nat | 2%nat, 0%nat | 2%nat, 2%nat => 1 / 2 | _, _ => 0 end.
Definition tri_sg (q n e : nat) : R := match n, e with 0%nat, _ => -1 | 1%nat, 0%nat => 1 | 2%nat, 1%nat => 1 | _, _ => 0 end.
Definition tri : fe RK := @Build_fe RK 1 3 [[0; 0]; [1; 0]; [-1; 1]] [[0; 1; 2]]%nat tri_sv tri_sg (fun _ => 1 / 6) (fun _ _ _ => 0) (fun _ _ _ _ => 0) (fun _ _ => 0) (fun _ _ => 0).
Definition det2 (m : list (list R)) : R := get2 (K := RK) m 0 0 * get2 (K := RK) m 1 1 - get2 (K := RK) m 0 1 * get2 (K := RK) m 1 0.
Definition inv2 (m : list (list R)) : list (list R) :=
  [[get2 (K := RK) m 1 1 / det2 m; - get2 (K := RK) m 0 1 / det2 m]; [- get2 (K := RK) m 1 0 / det2 m; get2 (K := RK) m 0 0 / det2 m]].
Definition no_tan (u : list R) (x : vinp RK (R * R)) : list R := repeat 0 9.
Definition no_stan (u : list R) (x : finp RK unit) : list R := repeat 0 9.
Definition tri_filtered := filtered 2 3 det2 inv2 tri FULL no_tan no_stan
  (vinp_of (K := RK) 2 det2 inv2 [tri] (fun _ _ => (0, 0)) 0) (finp_of (K := RK) 2 det2 inv2 (fun _ => 0) [tri] (fun _ => tt) (0, 0)%nat) 1 None.
Lemma tri_jac q : jac (K := RK) 2 tri 0 q = [[1; -1]; [0; 1]].
Proof. unfold jac, tab, coo, get2, node_of, Sum, tri, tri_sg. cbn. repeat f_equal; ring. Qed.
Lemma tri_JxW q : JxW (K := RK) 2 det2 tri 0 q = 1 / 6.
Proof. unfold JxW. rewrite tri_jac. unfold det2, get2. cbn. field. Qed.
Lemma tri_inv q : inv2 (jac (K := RK) 2 tri 0 q) = [[1; 1]; [0; 1]].
Proof. rewrite tri_jac. unfold inv2, det2, get2. cbn. repeat f_equal; field. Qed.
Lemma tri_grad q n d : shape_grad (K := RK) 2 inv2 tri 0 q n d = match n, d with 0%nat, 0%nat => -1 | 0%nat, 1%nat => -2 | 1%nat, 0%nat | 1%nat, 1%nat | 2%nat, 1%nat => 1 | _, _ => 0 end.
Proof.
  unfold shape_grad. rewrite Sum_rs. cbn [rs]. rewrite tri_inv. unfold get2. cbn [tri fe_sgref]. unfold tri_sg.
  destruct n as [|[|[|n]]]; destruct d as [|[|d]]; cbn; try ring; destruct d; cbn; ring.
Qed.
Lemma tri_usable : usable 2 3 det2 tri.
Proof.
  split.
  - intros c [<-|[]]. split; [reflexivity|]. intros n Hn. cbn in *. lia.
  - reflexivity.
  - intros q Hq. destruct q as [|[|[|q]]]; [..|lia]; cbn; lra.
  - intros q d Hd. destruct d as [|[|d]]; [..|lia]; cbn; lra.
  - intros c q Hc Hq. cbn in Hc. assert (c = 0%nat) as -> by lia. rewrite tri_JxW. lra.
Qed.
Example C93_triangle_example : usable 2 3 det2 tri /\ shapes tri no_tan no_stan /\ seen 3 tri /\ ones None 3 /\
  ones (Some (1%nat, fun _ _ => 1)) 3.
Proof.
  split; [exact tri_usable|]. split; [split; intros; reflexivity|]. split; [|split].
  - intros u H i Hi. cbn in Hi. pose proof (H 0%nat 0%nat ltac:(cbn; lia) ltac:(lia)) as A. pose proof (H 0%nat 1%nat ltac:(cbn; lia) ltac:(lia)) as B. pose proof (H 0%nat 2%nat ltac:(cbn; lia) ltac:(lia)) as C.
    unfold value, node_of in *. cbn [rs tri fe_nn fe_sv fe_cells nth tri_sv] in *. destruct i as [|[|[|i]]]; [..|lia]; lra.
  - intros i _. reflexivity.
  - intros i _. cbn. ring.
Qed.
(** Density 1 at one corner and 0 at the others: the filtered density is -1/23 at a corner. *)
Theorem C93_bounds_refuted : exists r s u, 0 < r /\ (forall i, 0 <= nth i s 0 <= 1) /\
  tri_filtered r s (fun _ => 0) u /\ nth 2 u 0 < 0.
Proof.
  exists (sqrt (1 / 24)), [0; 1; 0], [7 / 23; 17 / 23; - (1 / 23)]. split; [apply sqrt_lt_R0; lra|].
  split; [intros [|[|[|[|i]]]]; cbn; lra|]. split; [|cbn; lra].
  apply C93_equation; [exact tri_usable|split; intros; reflexivity|lia|]. split; [exists (fun i => nth i [7 / 23; 17 / 23; - (1 / 23)] 0); intros i _; reflexivity|].
  intros y v _. unfold tested. rewrite rs_zero by (intros; ring). rewrite pow2_sqrt by lra.
  unfold integral. cbn [tri fe_cells List.length rs]. rewrite !tri_JxW. unfold slope, value, node_of.
  change (fe_nn tri) with 3%nat. cbn [rs]. rewrite !tri_grad. cbn [tri fe_cells fe_sv nth tri_sv]. field.
Qed.
Print Assumptions C93_bounds_refuted.

(** What the kernel sees of a nodal density: its values at the quadrature points, when the mesh has
    different numbers of nodes and cells (with equal numbers it sees arrays instead of numbers, C20). *)
Definition pfe (nq : nat) (f : fe RK) : Params_Model.fe RK :=
  Params_Model.Build_fe RK (List.length (fe_points f)) (fe_nn f) (fe_cells f) (tab nq (fun q => tab (fe_nn f) (fe_sv f q))).
Definition pproblem (nq : nat) (f : fe RK) : Params_Model.problem RK := Params_Model.Build_problem RK [pfe nq f] (List.length (fe_cells f)).
Lemma tab_S {A} n (g : nat -> A) : tab (S n) g = g 0%nat :: tab n (fun k => g (S k)).
Proof. unfold tab. cbn [seq map]. rewrite <- seq_shift, map_map. reflexivity. Qed.
Lemma rs_shift n g : rs (S n) g = g 0%nat + rs n (fun k => g (S k)).
Proof. induction n as [|n IH]; [cbn; ring|]. change (rs (S n) g + g (S n) = g 0%nat + (rs n (fun k => g (S k)) + g (S n))). rewrite IH. ring. Qed.
Theorem C93_source : forall dim nq det f s c, usable dim nq det f -> List.length s = List.length (fe_points f) -> (c < List.length (fe_cells f))%nat ->
  (List.length (fe_points f) <> List.length (fe_cells f) ->
   Params_Model.quad_values RK (pproblem nq f) (Params_Model.A1 RK s) c = Some (tab nq (fun q => Params_Model.QS RK (value f s c q)))) /\
  (List.length (fe_points f) = List.length (fe_cells f) -> (0 < nq)%nat ->
   forall l, Params_Model.quad_values RK (pproblem nq f) (Params_Model.A1 RK s) c = Some l -> forall x, ~ In (Params_Model.QS RK x) l).
Proof.
  intros dim nq det f s c U L Hc.
  assert (FIND : Params_Model.classify RK (pproblem nq f) (Params_Model.A1 RK s) = Params_Model.KNode 0).
  { unfold Params_Model.classify. cbn [pproblem Params_Model.p_fes Params_Model.find_fe pfe Params_Model.f_nodes]. rewrite L, Nat.eqb_refl. reflexivity. }
  destruct (us_cells _ _ _ _ U (nth c (fe_cells f) []) (nth_In _ _ Hc)) as [CL CB].
  unfold Params_Model.quad_values. rewrite FIND. unfold Params_Model.gather. cbn [pproblem Params_Model.p_ncells Params_Model.p_fes Params_Model.find_fe pfe Params_Model.f_nodes]. rewrite L, Nat.eqb_refl. split.
  - intros NE. destruct (Nat.eqb_spec (List.length (fe_points f)) (List.length (fe_cells f))); [contradiction|].
    cbn [Params_Model.interpolate Params_Model.fe_at nth Params_Model.p_fes Params_Model.f_cells Params_Model.f_shape Params_Model.shape_dot].
    assert (FA : forallb (fun row => (List.length row =? List.length (map (Params_Model.jget 0%R s) (nth c (fe_cells f) [])))%nat) (tab nq (fun q => tab (fe_nn f) (fe_sv f q))) = true).
    { apply forallb_forall. intros row Hr. unfold tab at 1 in Hr. apply in_map_iff in Hr. destruct Hr as (q & <- & _). rewrite tab_length, map_length, CL. apply Nat.eqb_refl. }
    change (@c0 RK) with 0 in *. cbn in FA |- *. rewrite FA. f_equal. unfold tab at 1 3. rewrite map_map. apply map_ext. intros q. f_equal.
    unfold Params_Model.dotl, value.
    assert (D : forall (l : list nat) (g : nat -> R), (forall n, In n l -> (n < List.length s)%nat) ->
      sumf (K := RK) (fun p => cmul (c := RK) (fst p) (snd p)) (combine (tab (List.length l) g) (map (Params_Model.jget 0%R s) l)) = rs (List.length l) (fun k => g k * nth (nth k l 0%nat) s 0)).
    { induction l as [|a l IH]; intros g HB; [reflexivity|]. cbn [List.length]. rewrite tab_S, rs_shift. cbn [map combine sumf fst snd nth]. rewrite IH by (intros; apply HB; right; assumption).
      unfold Params_Model.jget. rewrite Nat.min_l by (rewrite Nat.sub_1_r; apply Nat.lt_le_pred; exact (HB a (or_introl eq_refl))). cbn [cadd cmul RK]. reflexivity. }
    rewrite <- CL. refine (D _ (fe_sv f q) _). intros m Hm. rewrite L. apply CB, Hm.
  - intros E Hq l Q x Hin. destruct (Nat.eqb_spec (List.length (fe_points f)) (List.length (fe_cells f))); [|contradiction].
    cbn in Q. injection Q as <-. apply in_map_iff in Hin. destruct Hin as (row & Hr & _). discriminate Hr.
Qed.
Print Assumptions C93_source.
