(** C12: conditions put together call by call, and the pytree of the compiled conditions. *)
From Coq Require Import ZArith List Bool Arith Lia String.
From Verif Require Import Base Dof_Model Dof_Spec Bc_Model BcCreate_Proofs Bc_Props BcConfig_Model.
Import ListNotations.
Local Open Scope list_scope. Local Open Scope nat_scope.

(** One added entry applies to component [c] of node [a] at point [p]; there is no word about the variable. *)
Definition entry_applies {K : CRing} {Pt : Type} (e : entry K Pt) (a c : nat) (p : Pt) : Prop :=
  let '(l, k, _) := e in on_location l p a = true /\ (normalise_component k = Ok CAll \/ normalise_component k = Ok (COne c)).
Definition entry_value {K : CRing} {Pt : Type} (e : entry K Pt) (p : Pt) : K := let '(_, _, v) := e in v p.
Definition entry_valid {K : CRing} {Pt : Type} (e : entry K Pt) : Prop := let '(_, k, _) := e in exists c, normalise_component k = Ok c.

Lemma valid_hd K Pt l k v (t : list (entry K Pt)) : Forall entry_valid ((l, k, v) :: t) -> exists c, normalise_component k = Ok c.
Proof. intros F. exact (Forall_inv F). Qed.
Lemma normalise_two k : (exists c, normalise_component k = Ok c) \/ normalise_component k = ValueError.
Proof.
  destruct k as [s|z]; cbn.
  - destruct (String.eqb _ _); [left; eexists; reflexivity|]. destruct (String.eqb _ _); [left; eexists; reflexivity|]. destruct (String.eqb _ _); [left; eexists; reflexivity|].
    destruct (String.eqb _ _); [left; eexists; reflexivity|right; reflexivity].
  - destruct (z <? 0)%Z; [right; reflexivity|left; eexists; reflexivity].
Qed.
Lemma adds_spec K Pt (es : list (entry K Pt)) : forall specs,
  (Forall entry_valid es -> exists l, adds K Pt specs es = Ok (specs ++ l) /\
     Forall2 (fun e s => (forall i a c p, applies i a c p s = true <-> entry_applies e a c p) /\ (forall p, s_val s p = entry_value e p) /\ s_var s = None) es l) /\
  (~ Forall entry_valid es -> adds K Pt specs es = ValueError).
Proof.
  induction es as [|[[l k] v] t IH]; intros specs.
  - split; [intros _; exists []; rewrite app_nil_r; split; [reflexivity|constructor]|]. intros H. exfalso. apply H. constructor.
  - cbn [adds add]. destruct (normalise_two k) as [[c E]|E]; rewrite E.
    + destruct (IH (specs ++ [Build_spec K l c v None])) as [A B]. split.
      * intros F. inversion F as [|? ? _ F']; subst. destruct (A F') as (r & Er & Fr). exists (Build_spec K l c v None :: r). rewrite Er. rewrite <- app_assoc. split; [reflexivity|]. constructor; [|exact Fr].
        split; [|split; reflexivity]. intros i a c' p. unfold applies, entry_applies. cbn [s_var s_comp s_loc]. rewrite E. cbn [andb]. rewrite andb_true_iff. destruct c as [|c]; split.
        -- intros [_ H]. auto.
        -- intros [H _]. auto.
        -- intros [H1 H2]. apply Nat.eqb_eq in H1. subst. auto.
        -- intros [H1 [H2|H2]]; [discriminate H2|]. injection H2 as ->. rewrite Nat.eqb_refl. auto.
      * intros N. apply B. intros F. apply N. constructor; [exists c; exact E|exact F].
    + split; [intros F; destruct (valid_hd _ _ _ _ _ _ F); congruence|]. reflexivity.
Qed.

(** A chain of [add] calls on an empty configuration: it raises ValueError exactly if some component is not valid; otherwise the compiled conditions constrain a degree of freedom
    exactly if one of the calls applies to its node and component, in every variable, and the first such call gives the value. *)
Theorem C12_fluent :
  forall (K : CRing) (Pt : Type) (d : Pt) (fes : list (fe Pt)) (es : list (entry K Pt)),
  (~ Forall entry_valid es <-> adds K Pt [] es = ValueError) /\
  (forall specs bc, adds K Pt [] es = Ok specs -> from_specs K Pt d fes specs = Ok bc ->
     length specs = length es /\
     forall i f a c, nth_error fes i = Some f -> a < length (fe_points f) -> c < fe_vec f ->
       let p := nth a (fe_points f) d in
       (In (dof (fe_layout fes) i a c) (bc_rows bc) <-> exists e, In e es /\ entry_applies e a c p) /\
       forall pre e post, es = pre ++ e :: post -> entry_applies e a c p -> (forall e', In e' pre -> ~ entry_applies e' a c p) ->
         exists k, k < length (bc_rows bc) /\ nth k (bc_rows bc) 0 = dof (fe_layout fes) i a c /\ get (bc_vals bc) k = entry_value e p).
Proof.
  intros K Pt d fes es. destruct (adds_spec K Pt es []) as [A B].
  assert (V : Forall entry_valid es \/ ~ Forall entry_valid es).
  { clear. induction es as [|[[l k] v] t IH]; [left; constructor|]. destruct (normalise_two k) as [[c E]|E]; [destruct IH as [IH|IH]; [left; constructor; [exists c; exact E|exact IH]|right; intros F; inversion F; contradiction]|].
    right; intros F. destruct (valid_hd _ _ _ _ _ _ F); congruence. }
  split.
  - split; [exact B|]. intros E F. destruct (A F) as (l & El & _). congruence.
  - intros specs bc E C. destruct V as [V|V]; [|rewrite (B V) in E; discriminate E]. destruct (A V) as (l & El & F2). cbn [app] in El. rewrite E in El. injection El as <-.
    split; [clear -F2; induction F2; cbn; congruence|]. intros i f a c Hi Ha Hc p. destruct (C12_create_bc d fes specs C) as (_ & _ & R & FV). split.
    + rewrite (R i f a c Hi Ha Hc). fold p. clear -F2. induction F2 as [|e s es l (H & _) F2 IH]; [split; intros (x & [] & _)|]. split.
      * intros (x & [<-|Hx] & Y); [exists e; split; [left; reflexivity|apply (H i), Y]|]. destruct (proj1 IH (ex_intro _ x (conj Hx Y))) as (e' & He & Q). exists e'. split; [right; exact He|exact Q].
      * intros (x & [<-|Hx] & Y); [exists s; split; [left; reflexivity|apply (H i), Y]|]. destruct (proj2 IH (ex_intro _ x (conj Hx Y))) as (e' & He & Q). exists e'. split; [right; exact He|exact Q].
    + intros pre e post Ees Ap Npre. subst es. apply Forall2_app_inv_l in F2. destruct F2 as (l1 & l2 & F1 & F2 & ->). inversion F2 as [|? s ? l3 (H & Vs & _) _]; subst.
      rewrite <- Vs. apply (FV i f a c l1 s l3 Hi Ha Hc eq_refl); [apply (H i), Ap|]. intros s' Hs'. fold p. clear -F1 Npre Hs'. induction F1 as [|e' s0 pre l (H & _) F1 IH]; [destruct Hs'|].
      destruct Hs' as [<-|Hs']; [|apply IH; [intros e'' He''; apply Npre; right; exact He''|exact Hs']].
      destruct (applies i a c p s0) eqn:X; [|reflexivity]. exfalso. apply (Npre e' (or_introl eq_refl)). apply (H i), X.
Qed.
Print Assumptions C12_fluent.

(** So conditions put together with [add] cannot be for one variable of several: what is constrained in one variable is constrained in every other that has a node of that number at the same point
    and that component. The constructor of a single condition can (its variable index): the second part has only the second variable constrained. *)
Theorem C12_fluent_variable_refuted :
  (forall (K : CRing) (Pt : Type) (d : Pt) (fes : list (fe Pt)) (es : list (entry K Pt)) specs bc i j f g a c,
     adds K Pt [] es = Ok specs -> from_specs K Pt d fes specs = Ok bc -> nth_error fes i = Some f -> nth_error fes j = Some g ->
     a < length (fe_points f) -> a < length (fe_points g) -> nth a (fe_points f) d = nth a (fe_points g) d -> c < fe_vec f -> c < fe_vec g ->
     (In (dof (fe_layout fes) i a c) (bc_rows bc) <-> In (dof (fe_layout fes) j a c) (bc_rows bc))) /\
  exists (fes : list (fe Z)) (specs : list (spec ZK Z)) (bc : dirichlet ZK), from_specs ZK Z 0%Z fes specs = Ok bc /\
    ~ In (dof (fe_layout fes) 0 0 0) (bc_rows bc) /\ In (dof (fe_layout fes) 1 0 0) (bc_rows bc) /\ nth_error fes 0 = nth_error fes 1.
Proof.
  split.
  - intros K Pt d fes es specs bc i j f g a c E C Hi Hj Ha Hb P Hc Hd. destruct (C12_fluent K Pt d fes es) as [_ H]. destruct (H specs bc E C) as [_ G].
    destruct (G i f a c Hi Ha Hc) as [Gi _]. destruct (G j g a c Hj Hb Hd) as [Gj _]. rewrite Gi, Gj, P. reflexivity.
  - exists [Build_fe 1 [10; 20]%Z; Build_fe 1 [10; 20]%Z], [Build_spec ZK (Loc1 (fun p => Z.eqb p 10)) CAll (fun _ => 5%Z) (Some 1)]. eexists. split; [vm_compute; reflexivity|].
    split; [vm_compute; intros [H|[]]; discriminate H|]. split; [vm_compute; left; reflexivity|reflexivity].
Qed.
Print Assumptions C12_fluent_variable_refuted.

(** Compiled conditions survive being taken apart and put together again; replacing the values is replacing that leaf. *)
Theorem C12_pytree :
  forall (K : CRing) (bc : dirichlet K) (rows : list nat) (mask : list bool) (vals : list K) (aux : nat),
  unflatten K (snd (flatten K bc)) (fst (flatten K bc)) = bc /\
  flatten K (unflatten K aux (rows, mask, vals)) = ((rows, mask, vals), aux) /\
  replace_vals bc vals = unflatten K (snd (flatten K bc)) (bc_rows bc, bc_mask bc, vals).
Proof. intros K [r m v t] rows mask vals aux. repeat split. Qed.
Print Assumptions C12_pytree.

Example C12_fluent_example :
  let es := [(Loc1 (fun p => Z.eqb p 30), CStr "y", fun _ => 5%Z); (Loc1 (fun p => Z.leb 20 p), CInt 0, fun p => (p + 1)%Z)] : list (entry ZK Z) in
  Forall entry_valid es /\ exists specs, adds ZK Z [] es = Ok specs /\ length specs = 2 /\
  from_specs ZK Z 0%Z ex_fes specs = Ok (@Build_dirichlet ZK [2; 4; 5; 7] [false; false; true; false; true; true; false; true] [21; 31; 5; 31]%Z 8) /\
  adds ZK Z [] (es ++ [(Loc1 (fun _ => true), CStr "w", fun _ => 0%Z)]) = ValueError.
Proof.
  cbv zeta. split; [repeat constructor; eexists; reflexivity|]. eexists. split; [reflexivity|]. split; [reflexivity|]. split; [vm_compute; reflexivity|reflexivity].
Qed.
