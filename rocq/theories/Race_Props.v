(** C105: concurrent solves through the caching callbacks of the direct solvers. *)
From Coq Require Import List Arith Lia Bool.
From Verif Require Import Race_Model.
Import ListNotations.

(** ** Specification *)
Section Spec.
  Context {V B X : Type}.
  Variable singular : mat V -> bool.
  Variable lib_solve : mat V -> B -> X.

  (** What a call returns when it runs alone: the solution for its own matrix and right-hand
      side, or the library's error for a matrix it cannot factorise. *)
  Definition own_answer (t : thread V B X) : pc X :=
    if singular (t_mat _ _ _ t) then Failed else Done (lib_solve (t_mat _ _ _ t) (t_rhs _ _ _ t)).
  Definition finished (t : thread V B X) : Prop :=
    match t_pc _ _ _ t with Done _ | Failed => True | _ => False end.

  (** A cache state as left by earlier completed calls: the stored pattern is the one the
      stored factor was analysed for. The empty state qualifies. *)
  Definition consistent (c : cst V) : Prop :=
    forall f n cl offs, s_factor _ c = Some f -> s_n _ c = Some n -> s_cols _ c = Some cl -> s_offs _ c = Some offs ->
      f_sym _ f = {| p_n := n; p_cols := cl; p_offs := offs |}.

  (** Every call is at its start; the calls on callback [k] all carry the same matrix (one call
      alone on its callback does). *)
  Definition starting (ts : list (thread V B X)) : Prop := Forall (fun t => t_pc _ _ _ t = C0) ts.
  Definition agree (k : nat) (ts : list (thread V B X)) : Prop :=
    forall a b, In a ts -> In b ts -> t_key _ _ _ a = k -> t_key _ _ _ b = k -> t_mat _ _ _ a = t_mat _ _ _ b.
End Spec.

(** ** Lemmas *)
Lemma nth_set_same {T} (l : list T) i x y : nth_error l i = Some y -> nth_error (set_nth l i x) i = Some x.
Proof. revert i. induction l as [|z l IH]; intros [|i]; simpl; intro H; try discriminate; [reflexivity|apply IH; exact H]. Qed.
Lemma nth_set_other {T} (l : list T) i j x : i <> j -> nth_error (set_nth l i x) j = nth_error l j.
Proof. revert i j. induction l as [|z l IH]; intros [|i] [|j] N; simpl; try reflexivity; try congruence. apply IH. congruence. Qed.
Lemma set_nth_length {T} (l : list T) i x : length (set_nth l i x) = length l.
Proof. revert i. induction l as [|z l IH]; intros [|i]; simpl; try reflexivity. rewrite IH. reflexivity. Qed.

Section Proofs.
  Context {V B X : Type}.
  Variable singular : mat V -> bool.
  Variable lib_solve : mat V -> B -> X.
  Notation thread := (thread V B X).
  Notation cst := (cst V).
  Notation tstep := (tstep V B X singular lib_solve).
  Notation tk := (t_key V B X). Notation tm := (t_mat V B X). Notation tr := (t_rhs V B X). Notation tp := (t_pc V B X).

  Variables (A : mat V) (c0 : cst).
  Hypothesis W0 : consistent c0.
  Let P := m_pat A.

  Definition field {T} (a b : option T) (x : T) : Prop := a = b \/ a = Some x.
  (** The shared state while calls with matrix [A] run; [cr]: some call has created a factor. *)
  Definition sinv (cr : bool) (c : cst) : Prop :=
    if cr then
      (exists f, s_factor _ c = Some f /\ f_sym _ f = P) /\
      field (s_cols _ c) (s_cols _ c0) (p_cols P) /\ field (s_offs _ c) (s_offs _ c0) (p_offs P) /\
      field (s_n _ c) (s_n _ c0) (p_n P)
    else s_cols _ c = s_cols _ c0 /\ s_offs _ c = s_offs _ c0 /\ s_n _ c = s_n _ c0 /\
      option_map (f_sym _) (s_factor _ c) = option_map (f_sym _) (s_factor _ c0).
  Definition ready (c : cst) : Prop :=
    singular A = false /\ s_factor _ c = Some {| f_sym := P; f_num := Some A |}.
  Definition tinv (cr : bool) (c : cst) (t : thread) : Prop :=
    tm t = A /\
    match tp t with
    | C0 => True
    | Cr _ => True
    | C1 _ => s_factor _ c <> None
    | C2 _ => s_factor _ c <> None /\ (cr = true \/ s_n _ c0 = Some (p_n P))
    | C3 _ => s_factor _ c <> None /\ (cr = true \/ (s_n _ c0 = Some (p_n P) /\ s_cols _ c0 = Some (p_cols P)))
    | Re _ => exists f, s_factor _ c = Some f /\ f_sym _ f = P
    | S1 _ => cr = true /\ ready c
    | S2 _ => cr = true /\ ready c /\ s_cols _ c = Some (p_cols P)
    | S3 _ => cr = true /\ ready c /\ s_cols _ c = Some (p_cols P) /\ s_offs _ c = Some (p_offs P)
    | Sv _ => ready c
    | Done x => singular A = false /\ x = lib_solve A (tr t)
    | Failed => singular A = true
    end.
  Definition stored (c : cst) : Prop :=
    s_cols _ c = Some (p_cols P) /\ s_offs _ c = Some (p_offs P) /\ s_n _ c = Some (p_n P).
  Definition storing (t : thread) : Prop := match tp t with S1 _ | S2 _ | S3 _ => True | _ => False end.

  Lemma same_nat_spec o n : same_nat o n = true -> o = Some n.
  Proof. destruct o; simpl; [|discriminate]. intro H. apply Nat.eqb_eq in H. congruence. Qed.
  Lemma same_list_spec o l : same_list o l = true -> o = Some l.
  Proof. destruct o; simpl; [|discriminate]. destruct (list_eq_dec _ _ _); [congruence|discriminate]. Qed.

  Ltac crush := repeat match goal with
    | H : exists _, _ |- _ => destruct H
    | H : _ /\ _ |- _ => destruct H
    | H : field _ _ _ |- _ => destruct H
    end.

  Ltac fin := repeat match goal with |- _ /\ _ => split end; intros; try assumption; try reflexivity;
    try (left; split; [assumption|intro; assumption]); auto; try (exfalso; assumption).

  Lemma step_inv cr c t c' t' :
    sinv cr c -> tinv cr c t -> tstep c t = (c', t') ->
    exists cr', sinv cr' c' /\ tinv cr' c' t' /\ (cr = true -> cr' = true) /\
      tk t' = tk t /\ tr t' = tr t /\
      (forall t2, tinv cr c t2 -> tinv cr' c' t2) /\
      (cr' = true -> (cr = true /\ ~ storing t) \/ storing t' \/ stored c') /\
      (stored c -> stored c').
  Proof.
    intros SI (TM & TI) E. unfold Race_Model.tstep in E. rewrite TM in E. fold P in E.
    destruct (tp t) eqn:PC; unfold storing at 1; rewrite PC.
    - (* C0 *)
      injection E as <- <-. exists cr. unfold tinv, storing, at_pc; simpl.
      split; [exact SI|]. split; [split; [exact TM|]|].
      + destruct (s_factor _ c); [discriminate|exact I].
      + fin.
    - (* C1 *)
      injection E as <- <-. exists cr. unfold tinv, storing, at_pc; simpl.
      split; [exact SI|]. split; [split; [exact TM|]|fin].
      destruct (same_nat (s_n _ c) (p_n P)) eqn:Q; [|exact I]. apply same_nat_spec in Q.
      split; [exact TI|]. destruct cr; [left; reflexivity|right]. simpl in SI. crush. congruence.
    - (* C2 *)
      injection E as <- <-. exists cr. unfold tinv, storing, at_pc; simpl.
      split; [exact SI|]. split; [split; [exact TM|]|fin].
      destruct (same_list (s_cols _ c) (p_cols P)) eqn:Q; [|exact I]. apply same_list_spec in Q.
      destruct TI as [T1 T2]. split; [exact T1|]. destruct cr; [left; reflexivity|right].
      destruct T2 as [T2|T2]; [discriminate|]. simpl in SI. crush. split; congruence.
    - (* C3 *)
      injection E as <- <-. exists cr. unfold tinv, storing, at_pc; simpl.
      split; [exact SI|]. split; [split; [exact TM|]|fin].
      destruct (same_list (s_offs _ c) (p_offs P)) eqn:Q; [|exact I]. apply same_list_spec in Q.
      destruct TI as [T1 T2]. destruct cr.
      + destruct SI as (F & _). exact F.
      + destruct T2 as [T2|[T2 T3]]; [discriminate|]. simpl in SI. destruct SI as (E1 & E2 & E3 & E4).
        destruct (s_factor _ c) as [f|] eqn:F; [|congruence]. exists f. split; [reflexivity|].
        simpl in E4. destruct (s_factor _ c0) as [f0|] eqn:F0; [|discriminate]. simpl in E4.
        injection E4 as E4. rewrite E4. rewrite (W0 f0 (p_n P) (p_cols P) (p_offs P) F0 T2 T3 ltac:(congruence)).
        destruct P; reflexivity.
    - (* Cr *)
      destruct (singular A) eqn:SG; injection E as <- <-.
      + exists cr. unfold tinv, storing, at_pc; simpl. fin.
      + exists true.
        assert (RD : ready {| s_factor := Some {| f_sym := P; f_num := Some A |}; s_cols := s_cols _ c; s_offs := s_offs _ c; s_n := s_n _ c |})
          by (split; [exact SG|reflexivity]).
        split; [|split; [|split; [reflexivity|split; [reflexivity|split; [reflexivity|split; [|split]]]]]].
        * simpl. split; [eexists; split; reflexivity|]. unfold field. destruct cr; simpl in SI; crush; auto.
        * split; [exact TM|]. simpl. split; [reflexivity|exact RD].
        * intros t2 (T2m & T2). split; [exact T2m|]. destruct (tp t2); try exact I; try exact T2; simpl in *;
            crush; try discriminate; try (split; [discriminate|left; reflexivity]);
            try (eexists; split; reflexivity); repeat split; try reflexivity; assumption.
        * intros _. right; left. exact I.
        * intro ST. exact ST.
    - (* S1 *)
      injection E as <- <-. destruct TI as [-> RD]. exists true. unfold ready in RD.
      split; [|split; [|split; [reflexivity|split; [reflexivity|split; [reflexivity|split; [|split]]]]]].
      + simpl in *. destruct SI as (F & SI). split; [exact F|]. clear RD. crush; unfold field; auto.
      + split; [exact TM|]. simpl. split; [reflexivity|]. split; [split; simpl; apply RD|reflexivity].
      + intros t2 (T2m & T2). split; [exact T2m|]. destruct (tp t2); simpl in *; try exact T2; crush; repeat split; auto.
      + intros _. right; left. exact I.
      + intros (Z1 & Z2 & Z3). repeat split; simpl; auto.
    - (* S2 *)
      injection E as <- <-. destruct TI as (-> & RD & TC). exists true. unfold ready in RD.
      split; [|split; [|split; [reflexivity|split; [reflexivity|split; [reflexivity|split; [|split]]]]]].
      + simpl in *. destruct SI as (F & SI). split; [exact F|]. clear RD. crush; unfold field; auto.
      + split; [exact TM|]. simpl. split; [reflexivity|]. split; [split; simpl; apply RD|split; [exact TC|reflexivity]].
      + intros t2 (T2m & T2). split; [exact T2m|]. destruct (tp t2); simpl in *; try exact T2; crush; repeat split; auto.
      + intros _. right; left. exact I.
      + intros (Z1 & Z2 & Z3). repeat split; simpl; auto.
    - (* S3 *)
      injection E as <- <-. destruct TI as (-> & RD & TC & TO). exists true. unfold ready in RD.
      split; [|split; [|split; [reflexivity|split; [reflexivity|split; [reflexivity|split; [|split]]]]]].
      + simpl in *. destruct SI as (F & SI). split; [exact F|]. clear RD. crush; unfold field; auto.
      + split; [exact TM|]. simpl. split; simpl; apply RD.
      + intros t2 (T2m & T2). split; [exact T2m|]. destruct (tp t2); simpl in *; try exact T2; crush; repeat split; auto.
      + intros _. right; right. repeat split; simpl; auto.
      + intros (Z1 & Z2 & Z3). repeat split; simpl; auto.
    - (* Re *)
      destruct TI as (f & F & FS). rewrite F in E. destruct (pat_eq_dec (f_sym V f) P) as [_|N]; [|congruence].
      destruct (singular A) eqn:SG; injection E as <- <-; exists cr.
      + split; [|split; [|split; [auto|split; [reflexivity|split; [reflexivity|split; [|split]]]]]].
        * destruct cr; simpl in *; [|rewrite F in SI; simpl in SI; exact SI]. crush; (split; [eexists; split; [reflexivity|exact FS]|]); unfold field; auto.
        * split; [exact TM|]. simpl. exact SG.
        * intros t2 (T2m & T2). split; [exact T2m|]. destruct (tp t2); simpl in *; unfold ready in *; crush; try congruence; auto;
            try (eexists; split; [reflexivity|exact FS]); try (split; [discriminate|auto]).
        * intro Z. left. split; [exact Z|auto].
        * intro Z. exact Z.
      + split; [|split; [|split; [auto|split; [reflexivity|split; [reflexivity|split; [|split]]]]]].
        * destruct cr; simpl in *; [|rewrite F in SI; simpl in SI; exact SI]. crush; (split; [eexists; split; [reflexivity|exact FS]|]); unfold field; auto.
        * split; [exact TM|]. simpl. split; [exact SG|]. simpl. rewrite FS. reflexivity.
        * intros t2 (T2m & T2). split; [exact T2m|].
          destruct (tp t2); simpl in *; unfold ready in *; simpl; crush; try congruence; auto;
            try (eexists; split; [reflexivity|exact FS]); try (split; [discriminate|auto]); rewrite ?FS; repeat split; auto.
        * intro Z. left. split; [exact Z|auto].
        * intro Z. exact Z.
    - (* Sv *)
      destruct TI as [SG F]. rewrite F in E. fold P in E. rewrite Nat.eqb_refl in E. injection E as <- <-. exists cr.
      split; [exact SI|]. split; [split; [exact TM|simpl; split; [exact SG|reflexivity]]|]. fin.
    - injection E as <- <-. exists cr. split; [exact SI|]. split; [split; [exact TM|rewrite PC; exact TI]|]. fin.
    - injection E as <- <-. exists cr. split; [exact SI|]. split; [split; [exact TM|rewrite PC; exact TI]|]. fin.
  Qed.
End Proofs.

Section Global.
  Context {V B X : Type}.
  Variable singular : mat V -> bool.
  Variable lib_solve : mat V -> B -> X.
  Notation thread := (thread V B X).
  Notation tk := (t_key V B X). Notation tm := (t_mat V B X). Notation tr := (t_rhs V B X). Notation tp := (t_pc V B X).
  Notation tstep := (tstep V B X singular lib_solve).
  Notation runs := (runs V B X singular lib_solve).

  (** What never changes of a call. *)
  Definition fixed (t : thread) : nat * mat V * B := (tk t, tm t, tr t).
  Lemma tstep_fixed c t : fixed (snd (tstep c t)) = fixed t.
  Proof.
    unfold Race_Model.tstep. destruct (tp t); simpl; try reflexivity.
    - destruct (singular _); reflexivity.
    - destruct (s_factor _ c) as [f|]; [|reflexivity]. destruct (pat_eq_dec _ _); [|reflexivity]. destruct (singular _); reflexivity.
    - destruct (s_factor _ c) as [[fs [M|]]|]; try reflexivity. destruct (Nat.eqb _ _); reflexivity.
  Qed.
  Lemma map_set_nth {T U} (g : T -> U) l i x y : nth_error l i = Some y -> g x = g y -> map g (set_nth l i x) = map g l.
  Proof.
    revert i. induction l as [|z l IH]; intros [|i]; simpl; intros H E; try discriminate.
    - injection H as ->. rewrite E. reflexivity.
    - rewrite (IH i H E). reflexivity.
  Qed.
  Lemma runs_fixed g1 g2 : runs g1 g2 -> map fixed (snd g2) = map fixed (snd g1).
  Proof.
    induction 1 as [g|g1 g2 g3 _ IH ST]; [reflexivity|]. rewrite <- IH.
    destruct ST as [s ts i t c' t' N E]. simpl. apply (map_set_nth fixed ts i t' t N).
    rewrite <- (tstep_fixed (s (tk t)) t), E. reflexivity.
  Qed.
  Lemma fixed_nth ts ts0 i t0 : map fixed ts = map fixed ts0 -> nth_error ts0 i = Some t0 ->
    exists t, nth_error ts i = Some t /\ fixed t = fixed t0.
  Proof.
    intros M N. assert (Q : nth_error (map fixed ts) i = Some (fixed t0)) by (rewrite M; apply map_nth_error; exact N).
    rewrite nth_error_map in Q. destruct (nth_error ts i) as [t|]; [|discriminate]. injection Q as Q1 Q2 Q3.
    exists t. split; [reflexivity|]. unfold fixed. congruence.
  Qed.

  Definition ginv (k : nat) (A : mat V) (c0 : cst V) (g : store V * list thread) : Prop :=
    exists cr, sinv A c0 cr (fst g k) /\
      (forall i t, nth_error (snd g) i = Some t -> tk t = k -> tinv singular lib_solve A c0 cr (fst g k) t) /\
      (cr = true -> (exists i t, nth_error (snd g) i = Some t /\ tk t = k /\ storing t) \/ stored A (fst g k)).

  Lemma ginv_step k A c0 g g' : consistent c0 -> ginv k A c0 g -> step V B X singular lib_solve g g' -> ginv k A c0 g'.
  Proof.
    intros W (cr & SI & TI & EI) ST. destruct ST as [s ts i t c' t' N E]. simpl in *.
    pose proof (tstep_fixed (s (tk t)) t) as FX. rewrite E in FX. simpl in FX. injection FX as FK FM FR.
    unfold ginv; simpl. unfold put.
    destruct (Nat.eqb k (tk t)) eqn:Q.
    - apply Nat.eqb_eq in Q. subst k.
      destruct (step_inv singular lib_solve A c0 W cr (s (tk t)) t c' t' SI (TI i t N eq_refl) E)
        as (cr' & S' & T' & M & _ & _ & O & ST & SS).
      exists cr'. split; [exact S'|]. split.
      + intros j u NU KU. destruct (Nat.eq_dec i j) as [<-|D].
        * rewrite (nth_set_same ts i t' t N) in NU. injection NU as <-. exact T'.
        * rewrite (nth_set_other ts i j t' D) in NU. apply O. exact (TI j u NU KU).
      + intro C. destruct (ST C) as [[C1 NS]|[ST'|ST']].
        * destruct (EI C1) as [(j & u & NU & KU & SU)|SD]; [|right; exact (SS SD)].
          left. exists j, u. split; [|split; assumption].
          destruct (Nat.eq_dec i j) as [<-|D]; [|rewrite (nth_set_other ts i j t' D); exact NU].
          rewrite N in NU. injection NU as <-. contradiction.
        * left. exists i, t'. split; [exact (nth_set_same ts i t' t N)|]. split; [congruence|exact ST'].
        * right. exact ST'.
    - apply Nat.eqb_neq in Q. exists cr. split; [exact SI|]. split.
      + intros j u NU KU. destruct (Nat.eq_dec i j) as [<-|D].
        * rewrite (nth_set_same ts i t' t N) in NU. injection NU as <-. congruence.
        * rewrite (nth_set_other ts i j t' D) in NU. exact (TI j u NU KU).
      + intro C. destruct (EI C) as [(j & u & NU & KU & SU)|SD]; [|right; exact SD].
        left. exists j, u. split; [|split; assumption].
        destruct (Nat.eq_dec i j) as [<-|D]; [|rewrite (nth_set_other ts i j t' D); exact NU].
        rewrite N in NU. injection NU as <-. congruence.
  Qed.
  Lemma ginv_runs k A c0 g g' : consistent c0 -> runs g g' -> ginv k A c0 g -> ginv k A c0 g'.
  Proof. intros W R. induction R as [g|g1 g2 g3 _ IH ST]; intro G; [exact G|]. exact (ginv_step k A c0 g2 g3 W (IH G) ST). Qed.
  Lemma ginv_start s0 ts0 t0 : starting ts0 -> In t0 ts0 -> agree (tk t0) ts0 -> ginv (tk t0) (tm t0) (s0 (tk t0)) (s0, ts0).
  Proof.
    intros ST IN AG. exists false. split; [simpl; repeat split; reflexivity|]. split; [|discriminate].
    intros i t N K. apply nth_error_In in N. split; [exact (AG t t0 N IN K eq_refl)|].
    unfold starting in ST. rewrite Forall_forall in ST. rewrite (ST t N). exact I.
  Qed.

  Definition rank (p : pc X) : nat :=
    match p with C0 => 9 | C1 _ => 8 | C2 _ => 7 | C3 _ => 6 | Cr _ => 5 | S1 _ => 4 | S2 _ => 3 | S3 _ => 2 | Re _ => 2 | Sv _ => 1 | Done _ | Failed => 0 end.
  Lemma tstep_rank c t : ~ finished t -> rank (tp (snd (tstep c t))) < rank (tp t).
  Proof.
    intro NF. unfold Race_Model.tstep, finished in *. destruct (tp t) eqn:PC; simpl; try (exfalso; apply NF; exact I); try lia.
    - destruct (s_factor _ c); simpl; lia.
    - destruct (same_nat _ _); simpl; lia.
    - destruct (same_list _ _); simpl; lia.
    - destruct (same_list _ _); simpl; lia.
    - destruct (singular _); simpl; lia.
    - destruct (s_factor _ c) as [f|]; [|simpl; lia]. destruct (pat_eq_dec _ _); [|simpl; lia]. destruct (singular _); simpl; lia.
    - destruct (s_factor _ c) as [[fs [M|]]|]; simpl; try lia. destruct (Nat.eqb _ _); simpl; lia.
  Qed.
  Definition work (ts : list thread) : nat := list_sum (map (fun t => rank (tp t)) ts).
  Lemma work_set ts i t t' : nth_error ts i = Some t -> rank (tp t') < rank (tp t) -> work (set_nth ts i t') < work ts.
  Proof.
    unfold work. revert i. induction ts as [|u ts IH]; intros [|i]; simpl; intros N L; try discriminate.
    - injection N as ->. lia.
    - specialize (IH i N L). lia.
  Qed.
  Lemma finished_dec (t : thread) : {finished t} + {~ finished t}.
  Proof. unfold finished. destruct (tp t); (left; exact I) || (right; intro H; exact H). Qed.
  Lemma all_or_one (ts : list thread) : Forall finished ts \/ exists i t, nth_error ts i = Some t /\ ~ finished t.
  Proof.
    induction ts as [|u ts IH]; [left; constructor|]. destruct (finished_dec u) as [F|F].
    - destruct IH as [IH|(i & t & N & NF)]; [left; constructor; assumption|right; exists (S i), t; split; assumption].
    - right. exists 0, u. split; [reflexivity|exact F].
  Qed.
End Global.


Lemma runs_trans V B X sg ls g1 g2 g3 : runs V B X sg ls g1 g2 -> runs V B X sg ls g2 g3 -> runs V B X sg ls g1 g3.
Proof. intros H1 H2. induction H2 as [g|g a b _ IH ST]; [exact H1|]. exact (runs_S V B X sg ls g1 a b (IH H1) ST). Qed.

(** ** Theorems *)

(** Under every interleaving of any number of calls, a call whose callback is used only by calls
    with the same matrix (in particular a call that has its callback to itself) returns, if it
    returns, exactly what it would return alone. *)
Theorem C105_answers : forall (V B X : Type) (singular : mat V -> bool) (lib_solve : mat V -> B -> X)
    (s0 : store V) (ts0 : list (thread V B X)) (s : store V) (ts : list (thread V B X)) (i : nat) (t0 : thread V B X),
  starting ts0 -> nth_error ts0 i = Some t0 ->
  agree (t_key _ _ _ t0) ts0 -> consistent (s0 (t_key _ _ _ t0)) ->
  runs V B X singular lib_solve (s0, ts0) (s, ts) ->
  exists t, nth_error ts i = Some t /\ (finished t -> t_pc _ _ _ t = own_answer singular lib_solve t0).
Proof.
  intros V B X sg ls s0 ts0 s ts i t0 ST N AG W R.
  pose proof (nth_error_In _ _ N) as IN.
  destruct (ginv_runs sg ls _ _ _ _ _ W R (ginv_start sg ls s0 ts0 t0 ST IN AG)) as (cr & _ & TI & _). simpl in TI.
  destruct (fixed_nth ts ts0 i t0 (runs_fixed sg ls _ _ R) N) as (t & NT & FX). injection FX as FK FM FR.
  exists t. split; [exact NT|]. intro F. destruct (TI i t NT FK) as [TM TP]. unfold own_answer, finished in *.
  destruct (t_pc _ _ _ t) eqn:PC; try contradiction.
  - destruct TP as [SG ->]. rewrite SG, FR. reflexivity.
  - rewrite TP. reflexivity.
Qed.
Print Assumptions C105_answers.

(** Once they have all finished, the callback's state is again one that later calls can build on;
    the state of callbacks nobody used is unchanged. *)
Theorem C105_left : forall (V B X : Type) (singular : mat V -> bool) (lib_solve : mat V -> B -> X)
    (s0 : store V) (ts0 : list (thread V B X)) (s : store V) (ts : list (thread V B X)) (k : nat),
  starting ts0 -> agree k ts0 -> consistent (s0 k) ->
  runs V B X singular lib_solve (s0, ts0) (s, ts) -> Forall finished ts ->
  consistent (s k) /\ ((forall t, In t ts0 -> t_key _ _ _ t <> k) -> s k = s0 k).
Proof.
  intros V B X sg ls s0 ts0 s ts k ST AG W R FA.
  assert (U : (forall t, In t ts0 -> t_key _ _ _ t <> k) -> s k = s0 k).
  { intro NO. change (fst (s, ts) k = fst (s0, ts0) k).
    assert (NO' : forall t, In t (snd (s0, ts0)) -> t_key _ _ _ t <> k) by exact NO. clear NO FA ST AG W.
    induction R as [g|g1 g2 g3 R IH STP]; [reflexivity|]. rewrite <- (IH NO').
    pose proof (runs_fixed sg ls _ _ R) as FX. destruct STP as [s1 ts1 i t c' t' N E]. simpl in *. unfold put.
    destruct (Nat.eqb k (t_key _ _ _ t)) eqn:Q; [|reflexivity]. apply Nat.eqb_eq in Q. exfalso.
    destruct (fixed_nth (snd g1) ts1 i t (eq_sym FX) N) as (u & NU & FU).
    apply (NO' u (nth_error_In _ _ NU)). injection FU as FK _ _. congruence. }
  split; [|exact U].
  assert (D : (exists t0, In t0 ts0 /\ t_key _ _ _ t0 = k) \/ (forall t, In t ts0 -> t_key _ _ _ t <> k)).
  { clear. induction ts0 as [|u l IH]; [right; intros t []|].
    destruct (Nat.eq_dec (t_key _ _ _ u) k) as [E|E]; [left; exists u; split; [left; reflexivity|exact E]|].
    destruct IH as [(t0 & I0 & K0)|IH]; [left; exists t0; split; [right; exact I0|exact K0]|].
    right. intros t [<-|IN]; [exact E|exact (IH t IN)]. }
  destruct D as [(t0 & IN & K)|NO]; [|rewrite (U NO); exact W]. subst k.
  destruct (ginv_runs sg ls _ _ _ _ _ W R (ginv_start sg ls s0 ts0 t0 ST IN AG)) as (cr & SI & TI & EI). simpl in *.
  destruct cr.
  - destruct (EI eq_refl) as [(j & u & NU & KU & SU)|(Z1 & Z2 & Z3)].
    + exfalso. rewrite Forall_forall in FA. pose proof (FA u (nth_error_In _ _ NU)) as F. unfold finished, storing in *.
      destruct (t_pc _ _ _ u); assumption.
    + destruct SI as ((f & F & FS) & _). intros f' n cl offs F' HN HC HO. rewrite F in F'. injection F' as <-.
      rewrite FS, Z1, Z2, Z3 in *. destruct (m_pat (t_mat _ _ _ t0)); simpl in *. congruence.
  - destruct SI as (E1 & E2 & E3 & E4). intros f n cl offs F HN HC HO. rewrite F in E4. simpl in E4.
    destruct (s_factor V (s0 (t_key _ _ _ t0))) as [f0|] eqn:F0; [|discriminate]. simpl in E4. injection E4 as E4. rewrite E4.
    apply (W f0 n cl offs F0); congruence.
Qed.
Print Assumptions C105_left.

(** No call ever blocks another: from every configuration, some schedule finishes all calls. *)
Theorem C105_completes : forall (V B X : Type) (singular : mat V -> bool) (lib_solve : mat V -> B -> X)
    (s : store V) (ts : list (thread V B X)),
  exists s' ts', runs V B X singular lib_solve (s, ts) (s', ts') /\ Forall finished ts'.
Proof.
  intros V B X sg ls s ts. remember (work ts) as w eqn:WE. revert s ts WE.
  induction w as [w IH] using (well_founded_induction lt_wf). intros s ts WE.
  destruct (all_or_one ts) as [F|(i & t & N & NF)]; [exists s, ts; split; [constructor|exact F]|].
  destruct (tstep V B X sg ls (s (t_key _ _ _ t)) t) as [c' t'] eqn:E.
  pose proof (tstep_rank sg ls (s (t_key _ _ _ t)) t NF) as RK. rewrite E in RK. simpl in RK.
  pose proof (work_set ts i t t' N RK) as WL. rewrite <- WE in WL.
  destruct (IH _ WL (put V s (t_key _ _ _ t) c') (set_nth ts i t') eq_refl) as (s' & ts' & R & F).
  exists s', ts'. split; [|exact F]. eapply runs_trans; [|exact R].
  eapply runs_S; [constructor|]. econstructor; eassumption.
Qed.
Print Assumptions C105_completes.

(** Every finished call has taken at most nine steps of its own, whatever the others did: each
    own step of an unfinished call brings it nearer to the end. *)
Theorem C105_bounded : exists d : forall X : Type, pc X -> nat, forall X : Type,
  (forall p : pc X, d X p <= 9) /\
  forall (V B : Type) (singular : mat V -> bool) (lib_solve : mat V -> B -> X) (c : cst V) (t : thread V B X),
  ~ finished t -> d X (t_pc _ _ _ (snd (tstep V B X singular lib_solve c t))) < d X (t_pc _ _ _ t).
Proof.
  exists (fun X p => rank p). intro X. split; [intros []; simpl; lia|]. intros V B sg ls c t NF. apply tstep_rank. exact NF.
Qed.
Print Assumptions C105_bounded.

(** ** Witnesses *)
Definition play V B X sg ls (g : store V * list (thread V B X)) (sched : list nat) : store V * list (thread V B X) :=
  fold_left (fun g i => match nth_error (snd g) i with
    | Some t => let r := tstep V B X sg ls (fst g (t_key _ _ _ t)) t in
        (put V (fst g) (t_key _ _ _ t) (fst r), set_nth (snd g) i (snd r))
    | None => g end) sched g.
Lemma play_runs V B X sg ls sched : forall g, runs V B X sg ls g (play V B X sg ls g sched).
Proof.
  induction sched as [|i r IH]; intro g; [constructor|]. simpl. eapply runs_trans; [|apply IH].
  destruct g as [s ts]; simpl. destruct (nth_error ts i) as [t|] eqn:N; [|constructor].
  eapply runs_S; [constructor|]. econstructor; [exact N|]. destruct (tstep _ _ _ _ _ _ _); reflexivity.
Qed.

Definition pA : pat := {| p_n := 1; p_cols := [0]; p_offs := [0; 1] |}.
Definition pB : pat := {| p_n := 2; p_cols := [0; 1]; p_offs := [0; 1; 2] |}.
Definition ex_solve (m : mat nat) (b : nat) : list nat := map (fun v => v * b) (m_vals m).
Definition ex_thread (k : nat) (p : pat) (v : list nat) : thread nat nat (list nat) :=
  {| t_key := k; t_mat := Build_mat p v; t_rhs := 1; t_pc := C0 |}.
Definition fresh : store nat := fun _ => empty nat.

(** Two calls on one callback, same pattern, different values: one returns the other's solution. *)
Definition ended (k : nat) (p : pat) (v : list nat) (q : pc (list nat)) : thread nat nat (list nat) :=
  {| t_key := k; t_mat := Build_mat p v; t_rhs := 1; t_pc := q |}.
Theorem C105_values_refuted : exists s ts t,
  runs nat nat (list nat) (fun _ => false) ex_solve (fresh, [ex_thread 0 pA [3]; ex_thread 0 pA [5]]) (s, ts) /\
  Forall finished ts /\ nth_error ts 0 = Some t /\
  t_pc _ _ _ t = Done (ex_solve (Build_mat pA [5]) 1) /\
  t_pc _ _ _ t <> own_answer (fun _ => false) ex_solve (ex_thread 0 pA [3]).
Proof.
  pose proof (play_runs nat nat (list nat) (fun _ => false) ex_solve [0;0;0;0;0;1;1;1;1;1;0;1]
    (fresh, [ex_thread 0 pA [3]; ex_thread 0 pA [5]])) as R.
  destruct (play nat nat (list nat) (fun _ => false) ex_solve (fresh, [ex_thread 0 pA [3]; ex_thread 0 pA [5]])
    [0;0;0;0;0;1;1;1;1;1;0;1]) as [s ts] eqn:E.
  assert (TS : ts = [ended 0 pA [3] (Done [5]); ended 0 pA [5] (Done [5])]).
  { change ts with (snd (s, ts)). rewrite <- E. vm_compute. reflexivity. }
  exists s, ts, (ended 0 pA [3] (Done [5])). split; [exact R|]. subst ts.
  split; [repeat constructor|]. split; [reflexivity|]. split; [reflexivity|discriminate].
Qed.
Print Assumptions C105_values_refuted.

(** Two calls with different patterns on one callback: after both have finished, a later call made
    alone, with a matrix the library can factorise, fails. *)
Theorem C105_poison_refuted : exists s ts s' t,
  runs nat nat (list nat) (fun _ => false) ex_solve (fresh, [ex_thread 0 pA [3]; ex_thread 0 pB [5; 7]]) (s, ts) /\
  Forall finished ts /\
  runs nat nat (list nat) (fun _ => false) ex_solve (s, [ex_thread 0 pA [3]]) (s', [t]) /\
  t_pc _ _ _ t = Failed.
Proof.
  pose proof (play_runs nat nat (list nat) (fun _ => false) ex_solve [0;0;1;1;1;1;1;1;1;0;0;0;0]
    (fresh, [ex_thread 0 pA [3]; ex_thread 0 pB [5; 7]])) as R.
  remember (play nat nat (list nat) (fun _ => false) ex_solve (fresh, [ex_thread 0 pA [3]; ex_thread 0 pB [5; 7]])
    [0;0;1;1;1;1;1;1;1;0;0;0;0]) as g eqn:E.
  assert (TS : snd g = [ended 0 pA [3] Failed; ended 0 pB [5; 7] (Done [5; 7])]).
  { rewrite E. vm_compute. reflexivity. }
  pose proof (play_runs nat nat (list nat) (fun _ => false) ex_solve [0;0;0;0;0] (fst g, [ex_thread 0 pA [3]])) as R2.
  assert (TS2 : snd (play nat nat (list nat) (fun _ => false) ex_solve (fst g, [ex_thread 0 pA [3]]) [0;0;0;0;0]) = [ended 0 pA [3] Failed]).
  { rewrite E. vm_compute. reflexivity. }
  remember (play nat nat (list nat) (fun _ => false) ex_solve (fst g, [ex_thread 0 pA [3]]) [0;0;0;0;0]) as h eqn:Eh.
  exists (fst g), (snd g), (fst h), (ended 0 pA [3] Failed).
  split; [rewrite <- surjective_pairing; exact R|]. split; [rewrite TS; repeat constructor|].
  split; [|reflexivity]. rewrite <- TS2, <- surjective_pairing. exact R2.
Qed.
Print Assumptions C105_poison_refuted.

(** Two calls with one pattern on one callback: a matrix the library cannot factorise makes the
    other call, whose matrix it can, fail as well. *)
Theorem C105_error_refuted : exists s ts t,
  let sg := fun m : mat nat => match m_vals m with [0] => true | _ => false end in
  runs nat nat (list nat) sg ex_solve (fresh, [ex_thread 0 pA [3]; ex_thread 0 pA [0]]) (s, ts) /\
  Forall finished ts /\ nth_error ts 0 = Some t /\
  t_pc _ _ _ t = Failed /\ own_answer sg ex_solve (ex_thread 0 pA [3]) = Done (ex_solve (Build_mat pA [3]) 1).
Proof.
  set (sg := fun m : mat nat => match m_vals m with [0] => true | _ => false end).
  pose proof (play_runs nat nat (list nat) sg ex_solve [0;0;0;0;0;1;1;1;1;1;0]
    (fresh, [ex_thread 0 pA [3]; ex_thread 0 pA [0]])) as R.
  destruct (play nat nat (list nat) sg ex_solve (fresh, [ex_thread 0 pA [3]; ex_thread 0 pA [0]])
    [0;0;0;0;0;1;1;1;1;1;0]) as [s ts] eqn:E.
  assert (TS : ts = [ended 0 pA [3] Failed; ended 0 pA [0] Failed]).
  { change ts with (snd (s, ts)). rewrite <- E. vm_compute. reflexivity. }
  exists s, ts, (ended 0 pA [3] Failed). split; [exact R|]. subst ts.
  split; [repeat constructor|]. split; [reflexivity|]. split; reflexivity.
Qed.
Print Assumptions C105_error_refuted.

(** Three calls on two callbacks that meet the hypotheses: interleaved, each gets its answer. *)
Example C105_example :
  let ts0 := [ex_thread 0 pA [3]; ex_thread 1 pB [5; 7]; ex_thread 0 pA [3]] in
  let g := play nat nat (list nat) (fun _ => false) ex_solve (fresh, ts0) [0;2;1;0;2;1;0;2;1;0;2;1;0;2;1;0;2;1] in
  starting ts0 /\ agree 0 ts0 /\ agree 1 ts0 /\ consistent (fresh 0) /\ Forall finished (snd g) /\
  map (fun t => t_pc _ _ _ t) (snd g) = [Done [3]; Done [5; 7]; Done [3]].
Proof.
  cbv zeta. split; [repeat constructor|]. split; [|split; [|split; [|split]]].
  - intros a b [<-|[<-|[<-|[]]]] [<-|[<-|[<-|[]]]]; simpl; intros; reflexivity || discriminate.
  - intros a b [<-|[<-|[<-|[]]]] [<-|[<-|[<-|[]]]]; simpl; intros; reflexivity || discriminate.
  - intros f n cl offs F. discriminate.
  - vm_compute. repeat constructor.
  - vm_compute. reflexivity.
Qed.
