(** C39: the create_solver dispatch. *)
From Coq Require Import String ZArith QArith Bool List Arith Lia.
From Verif Require Import Options_Model Options_Props.
Import ListNotations.
Local Open Scope string_scope.

(** Option objects as the constructors produce them. *)
Definition good_lin (l : lin) : Prop :=
  match l with
  | Direct d => good_direct d
  | Krylov k => In (k_solver k) ["auto"; "cg"; "bicgstab"; "gmres"]
  | Amg a => In (a_solver a) ["auto"; "cg"; "gmres"; "bicgstab"]
  | Foreign => True
  end.
(** The method is decided. *)
Definition concrete (l : lin) : Prop :=
  match l with
  | Direct d => In (d_solver d) ["cudss"; "spsolve"; "umfpack"; "cholmod"]
  | Krylov k => In (k_solver k) ["cg"; "bicgstab"; "gmres"]
  | Amg _ => True
  | Foreign => False
  end.
(** [l'] is the requested solver [l] with "auto" decided: same family (AMG may become a Krylov
    method preconditioned by AMG), user settings kept. *)
Definition honours (l l' : lin) : Prop :=
  match l, l' with
  | Direct o, Direct d => same_settings o d /\ (d_solver o <> "auto" -> d = o)
  | Krylov o, Krylov k => (k_tol k = k_tol o /\ k_atol k = k_atol o /\ k_maxiter k = k_maxiter o /\ k_pre k = k_pre o /\ k_jacobi k = k_jacobi o /\
      k_shift k = k_shift o /\ k_x0 k = k_x0 o /\ k_common k = k_common o) /\ (k_solver o <> "auto" -> k = o)
  | Amg o, Krylov k => k_pre k = PAmg /\ k_tol k = a_tol o /\ k_atol k = a_atol o /\ k_maxiter k = a_maxiter o /\ k_common k = a_common o /\
      (a_solver o <> "auto" -> k_solver k = a_solver o /\ k_restart k = a_restart o)
  | Amg o, Amg a => a_tol a = a_tol o /\ a_atol a = a_atol o /\ a_maxiter a = a_maxiter o /\ a_restart a = a_restart o /\ a_rebuild a = a_rebuild o /\
      a_common a = a_common o /\ (a_solver o <> "auto" -> a_solver a = a_solver o)
  | _, _ => False
  end.
Lemma same_refl o : same_settings o o. Proof. repeat split. Qed.
Lemma honours_refl l : known l = true -> honours l l.
Proof. destruct l; cbn; intros H; try discriminate H; repeat split; auto. Qed.
Lemma honours_trans l1 l2 l3 : honours l1 l2 -> honours l2 l3 -> honours l1 l3.
Proof.
  destruct l1, l2; cbn; try contradiction; destruct l3; cbn; try contradiction.
  - intros [A1 A2] [B1 B2]. split; [unfold same_settings in *; intuition congruence|]. intros H. assert (d0 = d) by auto. subst d0. apply B2. exact H.
  - intros [A1 A2] [B1 B2]. split; [intuition congruence|]. intros H. assert (k0 = k) by auto. subst k0. apply B2. exact H.
  - intros (A1 & A2 & A3 & A4 & A5 & A6) [B1 B2]. do 5 (split; [intuition congruence|]).
    intros H. destruct (A6 H) as [C1 C2]. assert (E : k_solver k <> "auto") by congruence. rewrite (B2 E). split; assumption.
  - intros (A1 & A2 & A3 & A4 & A5 & A6 & A7) (B1 & B2 & B3 & B4 & B5 & B6). do 5 (split; [congruence|]).
    intros H. assert (E : a_solver a0 <> "auto") by (rewrite (A7 H); exact H). destruct (B6 E) as [C1 C2]. split; [rewrite C1; apply A7; exact H|congruence].
  - intros (A1 & A2 & A3 & A4 & A5 & A6 & A7) (B1 & B2 & B3 & B4 & B5 & B6 & B7). do 6 (split; [congruence|]).
    intros H. assert (E : a_solver a0 <> "auto") by (rewrite (A7 H); exact H). rewrite (B7 E). apply A7, H.
Qed.

Lemma direct_ok e o p v d : good_direct o -> resolve_direct e o p v = Ret d -> honours (Direct o) (Direct d) /\ concrete (Direct d) /\ good_direct d /\ usable e (d_solver d).
Proof.
  intros G H. destruct (string_dec (d_solver o) "auto") as [E|E].
  - destruct (C37_auto e o p v G E) as [A _]. destruct (A d H) as (U & _ & GD & NA & SS). split; [split; [exact SS|congruence]|]. split; [|auto].
    destruct GD as [GD _]. cbn in *. intuition congruence.
  - destruct (C37_explicit e o p v G E) as [A B]. assert (U : usable e (d_solver o) \/ ~ usable e (d_solver o)).
    { unfold usable. destruct (e_backend e), (e_spineax e), (e_cholmod e), (e_umfpack e), (string_dec (d_solver o) "spsolve"), (string_dec (d_solver o) "umfpack"), (string_dec (d_solver o) "cholmod"), (string_dec (d_solver o) "cudss"); intuition (try discriminate). }
    destruct U as [U|U]; [|rewrite (B U) in H; discriminate]. rewrite (A U) in H. injection H as <-. split; [split; [apply same_refl|auto]|]. split; [|auto]. destruct G as [G _]. cbn in *. intuition congruence.
Qed.
Lemma krylov_ok o p k : In (k_solver o) ["auto"; "cg"; "bicgstab"; "gmres"] -> resolve_iterative o p = Ret k -> honours (Krylov o) (Krylov k) /\ concrete (Krylov k).
Proof.
  intros G H. destruct (C38_auto o p) as [A B]. destruct (string_dec (k_solver o) "auto") as [E|E].
  - destruct (B E) as (k' & R & M & B1 & B2 & B3 & B4 & B5 & B6 & B7 & B8 & _). rewrite R in H. injection H as <-. split; [split; [auto 10|congruence]|]. cbn. rewrite M. destruct p; cbn; auto.
  - rewrite (A E) in H. injection H as <-. split; [cbn; auto 10|]. cbn in *. intuition congruence.
Qed.
Lemma amg_ok o t p k : In (a_solver o) ["auto"; "cg"; "gmres"; "bicgstab"] -> amg_to_krylov o t p = Ret k -> honours (Amg o) (Krylov k) /\ concrete (Krylov k) /\ t = true.
Proof.
  unfold amg_to_krylov, make_krylov. intros G H. destruct t; [|discriminate]. cbn [negb] in H.
  destruct (mem _ _) eqn:M in H; [|discriminate]. injection H as <-. split; [|split; [|reflexivity]].
  - cbn [honours k_pre k_tol k_atol k_maxiter k_common k_solver k_restart]. do 5 (split; [reflexivity|]). intros E. apply String.eqb_neq in E. rewrite E. auto.
  - cbn [concrete k_solver]. destruct (String.eqb_spec (a_solver o) "auto") as [E|E]; [destruct p; cbn; auto|]. cbn in *. intuition congruence.
Qed.
Lemma auto_ok e g l l' : good_lin l -> known l = true -> resolve_auto e g l = Ret l' -> honours l l' /\ good_lin l' /\ auto l' = false /\ known l' = true /\ (is_krylov l' = is_krylov l).
Proof.
  intros G K. unfold resolve_auto. destruct l as [d|k|a|]; try discriminate K.
  - destruct (d_solver d =? "auto") eqn:E.
    + destruct (resolve_direct e d _ _) as [d'| | |] eqn:R; cbn; try discriminate. intros H. injection H as <-. destruct (direct_ok _ _ _ _ _ G R) as (A & B & C & D). split; [exact A|]. split; [exact C|]. split; [|split; reflexivity].
      cbn in *. apply String.eqb_neq. intros X. rewrite X in B. intuition discriminate.
    + intros H. injection H as <-. split; [apply honours_refl; reflexivity|]. auto.
  - destruct (k_solver k =? "auto") eqn:E.
    + destruct (resolve_iterative k _) as [k'| | |] eqn:R; cbn; try discriminate. intros H. injection H as <-. destruct (krylov_ok _ _ _ G R) as (A & B). split; [exact A|]. cbn in *. split; [tauto|]. split; [|split; reflexivity].
      apply String.eqb_neq. intros X. rewrite X in B. intuition discriminate.
    + intros H. injection H as <-. split; [apply honours_refl; reflexivity|]. auto.
  - intros H. injection H as <-. split; [apply honours_refl; reflexivity|]. auto.
Qed.
(** The request after defaults. *)
Definition wanted_fwd (g : args) : lin :=
  match g_opts g with Some l => l | None => if g_P g then Krylov default_krylov else Direct default_direct end.
Definition wanted_adj (g : args) : lin := match g_adj g with AdjOther l => l | _ => wanted_fwd g end.
Definition rebuilds (l : lin) : Prop := match l with Amg a => a_rebuild a <> Some 0%Z | _ => False end.

Lemma reduced_side_ok e v l l' : good_lin l -> reduced_side e v l = Ret l' -> honours l l' /\ concrete l'.
Proof.
  intros G. unfold reduced_side. destruct l as [d|k|a|]; try discriminate.
  - destruct (d_solver d =? "auto") eqn:E.
    + destruct (resolve_direct e d MSpd v) as [d'| | |] eqn:R; cbn; try discriminate. intros H. injection H as <-. destruct (direct_ok _ _ _ _ _ G R) as (A & B & _). auto.
    + intros H. injection H as <-. split; [apply honours_refl; reflexivity|]. apply String.eqb_neq in E. destruct G as [G _]. cbn in *. intuition congruence.
  - destruct (resolve_iterative k MSpd) as [k'| | |] eqn:R; cbn; try discriminate. intros H. injection H as <-. apply (krylov_ok _ _ _ G R).
  - intros H. injection H as <-. cbn [honours concrete a_tol a_atol a_maxiter a_restart a_rebuild a_common a_solver]. split; [|exact I]. do 6 (split; [reflexivity|]). intros E. apply String.eqb_neq in E. rewrite E. reflexivity.
Qed.
Lemma lower_ok e g s l l' : good_lin l -> known l = true -> lower_linear e g s l = Ret l' -> honours l l' /\ concrete l' /\ is_direct l' = is_direct l /\ (is_direct l' || is_krylov l' = true).
Proof.
  intros G K. unfold lower_linear. destruct l as [d|k|a|]; try discriminate K; cbn [bind].
  - destruct (resolve_direct e d MSpd _) as [d'| | |] eqn:R; cbn; try discriminate. intros H. injection H as <-. destruct (direct_ok _ _ _ _ _ G R) as (A & B & _). auto.
  - destruct (resolve_iterative k MSpd) as [k'| | |] eqn:R; cbn; try discriminate. intros H. injection H as <-. destruct (krylov_ok _ _ _ G R). auto.
  - destruct (amg_to_krylov a _ _) as [k| | |] eqn:R; cbn [bind]; try discriminate. destruct (amg_ok _ _ _ _ G R) as (A & B & _).
    destruct (resolve_iterative k MSpd) as [k'| | |] eqn:R2; cbn [bind]; try discriminate. intros H. injection H as <-.
    assert (Gk : In (k_solver k) ["auto"; "cg"; "bicgstab"; "gmres"]) by (cbn in B |- *; tauto). destruct (krylov_ok _ _ _ Gk R2) as (C & D).
    split; [exact (honours_trans (Amg a) (Krylov k) (Krylov k') A C)|]. auto.
Qed.
Lemma solve_fn_ok l u : solve_fn l = Ret u -> concrete l.
Proof.
  unfold solve_fn. destruct l as [d|k|a|]; try discriminate.
  - destruct (d_solver d =? "auto"); [discriminate|]. destruct (mem _ _) eqn:M; [|discriminate]. intros _. apply mem_In in M. exact M.
  - destruct (k_solver k =? "auto"); [discriminate|]. destruct (mem _ _) eqn:M; [|discriminate]. intros _. apply mem_In in M. exact M.
Qed.

(** Whatever create_solver builds: the path is the requested one, the forward solver is the
    requested one with "auto" decided, the adjoint solver too (the forward one by default), and the
    flags are passed on, in the cases where they are. *)
Theorem C39_routes :
  forall e g pl, good_lin (wanted_fwd g) -> good_lin (wanted_adj g) -> create_solver e g = Ret pl ->
    honours (wanted_fwd g) (pl_fwd pl) /\ concrete (pl_fwd pl) /\ concrete (pl_adj pl) /\
    (pl_kind pl = KReduced <-> g_P g = true) /\ (pl_kind pl = KLinear <-> g_P g = false /\ g_linear g = true) /\
    (pl_kind pl = KNewtonAmg <-> g_P g = false /\ g_linear g = false /\ rebuilds (wanted_fwd g)) /\
    (pl_kind pl <> KNewtonAmg -> honours (wanted_adj g) (pl_adj pl) /\ (g_adj g = AdjDefault \/ g_adj g = AdjSame -> pl_adj pl = pl_fwd pl)) /\
    (pl_kind pl <> KNewtonAmg -> pl_extra pl = g_extra g) /\
    (g_P g = false -> g_linear g = false -> pl_sym pl = g_sym g) /\
    (pl_kind pl <> KNewtonExtraKrylov -> is_direct (pl_adj pl) = true -> pl_adj_matfree pl = false).
Proof.
  intros e g pl GF GA H. unfold create_solver in H.
  destruct (g_extra g && g_linear g) eqn:E1; [discriminate|]. destruct (g_extra g && g_P g) eqn:E2; [discriminate|].
  destruct (g_P g) eqn:EP.
  - assert (EX : g_extra g = false) by (destruct (g_extra g); [discriminate E2|reflexivity]).
    replace (match g_opts g with Some l => l | None => Krylov default_krylov end) with (wanted_fwd g) in H by (unfold wanted_fwd; rewrite EP; reflexivity).
    cbv zeta in H. fold (wanted_adj g) in H. unfold create_reduced in H.
    destruct (known (wanted_fwd g)) eqn:KF; [|discriminate]. destruct (known (wanted_adj g)) eqn:KA; [|discriminate]. cbn [negb] in H.
    destruct (g_pairing_ok g); [|discriminate]. cbn [negb] in H.
    destruct (reduced_side e (g_view g) (wanted_fwd g)) as [f| | |] eqn:RF; cbn [bind] in H; try discriminate.
    destruct (reduced_side e (g_view g) (wanted_adj g)) as [a| | |] eqn:RA; cbn [bind] in H; try discriminate. injection H as <-.
    destruct (reduced_side_ok _ _ _ _ GF RF) as [HF CF]. destruct (reduced_side_ok _ _ _ _ GA RA) as [HA CA]. cbn [pl_kind pl_fwd pl_adj pl_sym pl_extra pl_adj_matfree].
    split; [exact HF|]. split; [exact CF|]. split; [exact CA|]. split; [tauto|]. split; [split; [discriminate|intros [X _]; discriminate X]|].
    split; [split; [discriminate|intros [X _]; discriminate X]|]. split; [intros _; split; [exact HA|]|].
    { intros X. assert (W : wanted_adj g = wanted_fwd g) by (unfold wanted_adj; destruct X as [-> | ->]; reflexivity). rewrite W, RF in RA. injection RA as <-. reflexivity. }
    split; [intros _; congruence|]. split; [discriminate|]. intros _ X. destruct a; try discriminate X. reflexivity.
  - replace (match g_opts g with Some l => l | None => Direct default_direct end) with (wanted_fwd g) in H by (unfold wanted_fwd; rewrite EP; reflexivity).
    cbv zeta in H. set (oa := match g_adj g with AdjOther l => Some l | _ => None end) in H.
    assert (WA : wanted_adj g = match oa with Some a => a | None => wanted_fwd g end) by (unfold wanted_adj, oa; destruct (g_adj g); reflexivity).
    assert (OD : (g_adj g = AdjDefault \/ g_adj g = AdjSame) -> oa = None) by (unfold oa; intros [-> | ->]; reflexivity).
    set (needs := auto (wanted_fwd g) || match oa with Some a => auto a | None => false end) in H.
    destruct (needs && negb (g_traced g)); [discriminate|]. destruct (known (wanted_fwd g)) eqn:KF; [|discriminate]. cbn [negb] in H.
    assert (KA : match oa with Some a => known a | None => true end = true). { destruct (match oa with Some a => known a | None => true end); [reflexivity|discriminate]. }
    rewrite KA in H. cbn [negb] in H.
    destruct (if needs then resolve_auto e g (wanted_fwd g) else Ret (wanted_fwd g)) as [f1| | |] eqn:RF; cbn [bind] in H; try discriminate.
    assert (F1 : honours (wanted_fwd g) f1 /\ good_lin f1 /\ known f1 = true /\ is_krylov f1 = is_krylov (wanted_fwd g)).
    { destruct needs; [destruct (auto_ok _ _ _ _ GF KF RF) as (A & B & _ & C & D); auto|injection RF as <-; split; [apply honours_refl; exact KF|auto]]. }
    destruct F1 as (HF1 & GF1 & KF1 & FAM).
    assert (AX : exists oa1, match oa with None => Ret None | Some a => bind (if needs then resolve_auto e g a else Ret a) (fun a => Ret (Some a)) end = Ret oa1 /\
       (oa = None -> oa1 = None) /\ (forall a, oa = Some a -> exists a1, oa1 = Some a1 /\ honours a a1 /\ good_lin a1 /\ known a1 = true)).
    { destruct oa as [a|] eqn:Eoa.
      - destruct (if needs then resolve_auto e g a else Ret a) as [a1| | |] eqn:RA; cbn [bind] in H |- *; try discriminate H.
        exists (Some a1). split; [reflexivity|]. split; [discriminate|]. intros a' Ea. injection Ea as <-. exists a1. split; [reflexivity|]. rewrite WA in GA.
        destruct needs; [destruct (auto_ok _ _ _ _ GA KA RA) as (A & B & _ & C & D); auto|injection RA as <-; split; [apply honours_refl; exact KA|auto]].
      - exists None. split; [reflexivity|]. split; [reflexivity|discriminate]. }
    destruct AX as (oa1 & RA & AN & AS). rewrite RA in H. cbn [bind] in H. clear RA RF.
    destruct (g_linear g) eqn:EL.
    + assert (EX : g_extra g = false) by (destruct (g_extra g); [discriminate E1|reflexivity]).
      unfold create_linear in H. rewrite KF1 in H. cbn [negb] in H.
      destruct (known match oa1 with Some a => a | None => f1 end); [|discriminate]. cbn [negb] in H.
      destruct (lower_linear e g true f1) as [f2| | |] eqn:LF; cbn [bind] in H; try discriminate.
      destruct (match oa1 with None => Ret f2 | Some a => lower_linear e g true a end) as [a2| | |] eqn:LA; cbn [bind] in H; try discriminate. injection H as <-.
      destruct (lower_ok _ _ _ _ _ GF1 KF1 LF) as (A1 & A2 & A3 & A4). cbn [pl_kind pl_fwd pl_adj pl_sym pl_extra pl_adj_matfree].
      assert (HF : honours (wanted_fwd g) f2) by (eapply honours_trans; [exact HF1|exact A1]).
      assert (HA : honours (wanted_adj g) a2 /\ concrete a2 /\ (oa = None -> a2 = f2)).
      { rewrite WA. destruct oa as [a|].
        - destruct (AS a eq_refl) as (a1 & -> & B1 & B2 & B3). destruct (lower_ok _ _ _ _ _ B2 B3 LA) as (C1 & C2 & _). split; [eapply honours_trans; [exact B1|exact C1]|]. split; [exact C2|discriminate].
        - rewrite (AN eq_refl) in LA. injection LA as <-. auto. }
      destruct HA as (HA & CA & ND). split; [exact HF|]. split; [exact A2|]. split; [exact CA|]. split; [split; [discriminate|intros X; discriminate X]|].
      split; [tauto|]. split; [split; [discriminate|intros (_ & X & _); discriminate X]|]. split; [intros _; split; [exact HA|intros X; apply ND, OD, X]|]. split; [intros _; congruence|].
      split; [discriminate|]. intros _ X. rewrite X. reflexivity.
    + assert (HN : honours (wanted_adj g) match oa1 with Some a => a | None => f1 end /\ match oa1 with Some a => good_lin a | None => True end).
      { rewrite WA. destruct oa as [a|]; [destruct (AS a eq_refl) as (a1 & -> & B1 & B2 & _); auto|rewrite (AN eq_refl); auto]. }
      destruct HN as [HN GN]. unfold create_newton in H.
      destruct (match f1 with Amg o => match a_rebuild o with Some r => negb (r =? 0)%Z | None => true end | _ => false end) eqn:RB.
      * injection H as <-. cbn [pl_kind pl_fwd pl_adj pl_sym pl_extra pl_adj_matfree]. destruct f1 as [d|k|o|]; try discriminate RB.
        assert (W : exists o', wanted_fwd g = Amg o' /\ a_rebuild o' = a_rebuild o). { destruct (wanted_fwd g) as [wd|wk|wa|]; cbn in HF1; try contradiction. exists wa. intuition congruence. }
        destruct W as (o' & W1 & W2). split; [exact HF1|]. split; [exact I|]. split; [exact I|]. split; [split; [discriminate|intros X; discriminate X]|]. split; [split; [discriminate|intros [_ X]; discriminate X]|].
        split; [split; [intros _; split; [reflexivity|split; [reflexivity|]]|reflexivity]|].
        { rewrite W1. cbn. rewrite W2. intros X. rewrite X in RB. discriminate RB. }
        split; [intros X; congruence|]. split; [intros X; congruence|]. split; [reflexivity|]. discriminate.
      * assert (NR : ~ rebuilds (wanted_fwd g)).
        { intros X. destruct (wanted_fwd g) as [wd|wk|wa|] eqn:W; cbn in X; try contradiction. destruct f1 as [d|k|o|]; cbn in HF1; try contradiction.
          - discriminate FAM.
          - destruct HF1 as (_ & _ & _ & _ & E & _). rewrite E in RB. destruct (a_rebuild wa) as [r|]; [|discriminate RB]. apply negb_false_iff, Z.eqb_eq in RB. congruence. }
        set (lf := match f1 with Amg o => bind (amg_to_krylov o (g_traced g) (g_mp g (g_sym g))) (fun k => Ret (Krylov k)) | _ => Ret f1 end) in H.
        destruct lf as [f2| | |] eqn:LF; cbn [bind] in H; try discriminate.
        assert (HF : honours (wanted_fwd g) f2 /\ known f2 = true).
        { unfold lf in LF. destruct f1 as [d|k|o|]; try discriminate KF1; try (injection LF as <-; auto).
          destruct (amg_to_krylov o _ _) as [k| | |] eqn:R; cbn [bind] in LF; try discriminate. injection LF as <-. split; [|reflexivity]. eapply honours_trans; [exact HF1|]. exact (proj1 (amg_ok _ _ _ _ GF1 R)). }
        set (la := match oa1 with None => Ret f2 | Some (Amg o) => bind (amg_to_krylov o (g_traced g) (g_mp g (g_sym g))) (fun k => Ret (Krylov k)) | Some a => Ret a end) in H.
        destruct la as [a2| | |] eqn:LA; cbn [bind] in H; try discriminate.
        assert (HA : honours (wanted_adj g) a2 /\ (oa = None -> a2 = f2)).
        { unfold la in LA. destruct oa as [a|].
          - destruct (AS a eq_refl) as (a1 & -> & B1 & B2 & B3). split; [|discriminate]. rewrite WA. destruct a1 as [d|k|o|]; try (injection LA as <-; exact B1).
            destruct (amg_to_krylov o _ _) as [k| | |] eqn:R; cbn [bind] in LA; try discriminate. injection LA as <-. eapply honours_trans; [exact B1|]. exact (proj1 (amg_ok _ _ _ _ B2 R)).
          - rewrite (AN eq_refl) in LA. injection LA as <-. rewrite WA. split; [exact (proj1 HF)|reflexivity]. }
        destruct HF as [HF KF2], HA as [HA ND].
        match type of H with bind ?c _ = _ => destruct c as [u| | |]; cbn [bind] in H; try discriminate end.
        destruct (solve_fn f2) as [u1| | |] eqn:S1; cbn [bind] in H; try discriminate. destruct (solve_fn a2) as [u2| | |] eqn:S2; cbn [bind] in H; try discriminate.
        apply solve_fn_ok in S1, S2.
        assert (FIN : forall pk mf, pl = {| pl_kind := pk; pl_fwd := f2; pl_adj := a2; pl_sym := g_sym g; pl_extra := g_extra g; pl_adj_matfree := mf |} ->
            pk = KNewton \/ pk = KNewtonExtraDirect \/ pk = KNewtonExtraKrylov -> (pk <> KNewtonExtraKrylov -> mf = negb (is_direct a2)) ->
            honours (wanted_fwd g) (pl_fwd pl) /\ concrete (pl_fwd pl) /\ concrete (pl_adj pl) /\
            (pl_kind pl = KReduced <-> false = true) /\ (pl_kind pl = KLinear <-> false = false /\ false = true) /\
            (pl_kind pl = KNewtonAmg <-> false = false /\ false = false /\ rebuilds (wanted_fwd g)) /\
            (pl_kind pl <> KNewtonAmg -> honours (wanted_adj g) (pl_adj pl) /\ (g_adj g = AdjDefault \/ g_adj g = AdjSame -> pl_adj pl = pl_fwd pl)) /\
            (pl_kind pl <> KNewtonAmg -> pl_extra pl = g_extra g) /\
            (false = false -> false = false -> pl_sym pl = g_sym g) /\
            (pl_kind pl <> KNewtonExtraKrylov -> is_direct (pl_adj pl) = true -> pl_adj_matfree pl = false)).
        { intros pk mf -> Hk Hm. cbn [pl_kind pl_fwd pl_adj pl_sym pl_extra pl_adj_matfree]. split; [exact HF|]. split; [exact S1|]. split; [exact S2|].
          split; [split; [intros ->; intuition discriminate|discriminate]|]. split; [split; [intros ->; intuition discriminate|intros [_ X]; discriminate X]|].
          split; [split; [intros ->; intuition discriminate|tauto]|]. split; [intros _; split; [exact HA|intros X; apply ND, OD, X]|]. split; [reflexivity|]. split; [reflexivity|].
          intros X Y. rewrite (Hm X), Y. reflexivity. }
        destruct (g_extra g).
        -- destruct (is_direct f2); injection H as <-; eapply FIN; [reflexivity|tauto|reflexivity|reflexivity|tauto|congruence].
        -- injection H as <-. eapply FIN; [reflexivity|tauto|reflexivity].
Qed.
Print Assumptions C39_routes.

(** The documented combinations, spelled out. *)
Definition can_auto (e : env) : Prop := e_backend e = CPU \/ (e_backend e = GPU /\ e_spineax e = true).
(** Some backend exists for an automatic direct solver. *)
Definition ready (e : env) (l : lin) : Prop := match l with Direct d => d_solver d = "auto" -> can_auto e | Foreign => False | _ => True end.
(** An explicitly named direct backend exists. *)
Definition named (e : env) (l : lin) : Prop := match l with Direct d => d_solver d <> "auto" -> usable e (d_solver d) | _ => True end.
Definition is_amg (l : lin) : Prop := match l with Amg _ => True | _ => False end.
Definition is_auto (l : lin) : Prop := match l with Direct d => d_solver d = "auto" | Krylov k => k_solver k = "auto" | _ => False end.
Definition supported (e : env) (g : args) : Prop :=
  let f := wanted_fwd g in let a := wanted_adj g in
  ~ (g_extra g = true /\ (g_linear g = true \/ g_P g = true)) /\ ready e f /\ ready e a /\
  (g_P g = true -> g_pairing_ok g = true) /\
  (g_P g = false -> is_auto f \/ is_auto a -> g_traced g = true) /\
  (g_P g = false -> g_linear g = true -> named e f /\ named e a /\ (is_amg f \/ is_amg a -> g_traced g = true)) /\
  (g_P g = false -> g_linear g = false -> ~ rebuilds f ->
     (is_amg f \/ is_amg a -> g_traced g = true) /\ (g_extra g = true -> is_direct f = true -> g_view g = VFull)).

Lemma auto_direct_dec e o p v : good_direct o -> d_solver o = "auto" -> (can_auto e <-> exists d, resolve_direct e o p v = Ret d).
Proof.
  intros G E. destruct (C37_auto e o p v G E) as (_ & A & B & C). unfold can_auto. destruct (e_backend e).
  - split; [intros _; apply A; reflexivity|auto].
  - destruct (e_spineax e).
    + split; [intros _; apply (proj1 (B eq_refl)); reflexivity|auto].
    + split; [intros [X|[_ X]]; discriminate|intros [d X]; rewrite (proj2 (B eq_refl) eq_refl) in X; discriminate].
  - split; [intros [X|[X _]]; discriminate|intros [d X]; rewrite (C eq_refl) in X; discriminate].
Qed.
Lemma usable_dec e s : usable e s \/ ~ usable e s.
Proof.
  unfold usable. destruct (e_backend e), (e_spineax e), (e_cholmod e), (e_umfpack e), (string_dec s "spsolve"), (string_dec s "umfpack"), (string_dec s "cholmod"), (string_dec s "cudss"); intuition (try discriminate).
Qed.
Lemma direct_dec e o p v : good_direct o -> (ready e (Direct o) /\ named e (Direct o) <-> exists d, resolve_direct e o p v = Ret d).
Proof.
  intros G. cbn [ready named]. destruct (string_dec (d_solver o) "auto") as [E|E].
  - rewrite <- (auto_direct_dec e o p v G E). intuition congruence.
  - destruct (C37_explicit e o p v G E) as [A B]. destruct (usable_dec e (d_solver o)) as [U|U].
    + split; [eauto|intros _; split; intros; congruence || assumption].
    + split; [intros [_ X]; elim U; auto|intros [d X]; rewrite (B U) in X; discriminate].
Qed.
Lemma krylov_ret o p : exists k, resolve_iterative o p = Ret k.
Proof. destruct (C38_auto o p) as [A B]. destruct (string_dec (k_solver o) "auto") as [E|E]; [destruct (B E) as (k & R & _); eauto|eauto]. Qed.
Lemma amg_ret o t p : In (a_solver o) ["auto"; "cg"; "gmres"; "bicgstab"] -> ((exists k, amg_to_krylov o t p = Ret k) <-> t = true).
Proof.
  intros G. split; [intros [k H]; exact (proj2 (proj2 (amg_ok _ _ _ _ G H)))|]. intros ->. unfold amg_to_krylov, make_krylov. cbn [negb].
  destruct (String.eqb_spec (a_solver o) "auto") as [E|E]; [destruct p; eexists; reflexivity|].
  cbn [In] in G. destruct G as [G|[G|[G|[G|[]]]]]; [congruence| | |]; rewrite <- G; eexists; reflexivity.
Qed.
Lemma auto_ret e g l : good_lin l -> known l = true -> (ready e l <-> exists l', resolve_auto e g l = Ret l').
Proof.
  intros G K. unfold resolve_auto. destruct l as [d|k|a|]; try discriminate K.
  - destruct (String.eqb_spec (d_solver d) "auto") as [E|E].
    + cbn [ready]. pose proof (auto_direct_dec e d (g_mp g (g_sym g)) (g_view g) G E) as [A B]. split.
      * intros R. destruct (A (R E)) as [d' ->]. cbn. eauto.
      * intros [l' H] _. apply B. destruct (resolve_direct e d _ _) as [d'| | |]; try discriminate H. eauto.
    + split; [eauto|]. intros _ X. contradiction.
  - destruct (krylov_ret k (g_mp g (g_sym g))) as [k' R]. destruct (k_solver k =? "auto"); [rewrite R|]; cbn; split; eauto; exact (fun _ => I).
  - split; [eauto|]. intros _. exact I.
Qed.
Lemma auto_true l : auto l = true <-> is_auto l.
Proof. destruct l; cbn; try (split; [discriminate|contradiction]); apply String.eqb_eq. Qed.
Lemma reduced_ret e v l : good_lin l -> (ready e l <-> exists l', reduced_side e v l = Ret l').
Proof.
  intros G. unfold reduced_side. destruct l as [d|k|a|].
  - destruct (String.eqb_spec (d_solver d) "auto") as [E|E].
    + cbn [ready]. pose proof (auto_direct_dec e d MSpd v G E) as [A B]. split.
      * intros R. destruct (A (R E)) as [d' ->]. cbn. eauto.
      * intros [l' H] _. apply B. destruct (resolve_direct e d _ _) as [d'| | |]; try discriminate H. eauto.
    + split; [eauto|]. intros _ X. contradiction.
  - destruct (krylov_ret k MSpd) as [k' R]. rewrite R. cbn. split; eauto; exact (fun _ => I).
  - split; [eauto|]. intros _. exact I.
  - split; [intros []|intros [x X]; discriminate].
Qed.
Lemma lower_ret e g s l : good_lin l -> known l = true -> (ready e l /\ named e l /\ (is_amg l -> g_traced g = true) <-> exists l', lower_linear e g s l = Ret l').
Proof.
  intros G K. unfold lower_linear. destruct l as [d|k|a|]; try discriminate K; cbn [bind].
  - pose proof (direct_dec e d MSpd (g_view g) G) as [A B]. split.
    + intros (R & N & _). destruct (A (conj R N)) as [d' ->]. cbn. eauto.
    + intros [l' H]. assert (X : exists d', resolve_direct e d MSpd (g_view g) = Ret d') by (destruct (resolve_direct e d _ _); try discriminate H; eauto). destruct (B X). cbn [is_amg]. tauto.
  - destruct (krylov_ret k MSpd) as [k' R]. rewrite R. cbn. split; [eauto|tauto].
  - pose proof (amg_ret a (g_traced g) (g_mp g s) G) as [A B]. cbn [ready named is_amg]. split.
    + intros (_ & _ & T). destruct (B (T I)) as [k ->]. cbn [bind]. destruct (krylov_ret k MSpd) as [k' ->]. cbn. eauto.
    + intros [l' H]. split; [exact I|]. split; [exact I|]. intros _. apply A. destruct (amg_to_krylov a _ _) as [k| | |]; try discriminate H. eauto.
Qed.
Lemma solve_ret l : concrete l -> ~ is_amg l -> solve_fn l = Ret tt.
Proof.
  unfold solve_fn. destruct l as [d|k|a|]; cbn [concrete is_amg]; try tauto.
  - intros H _. destruct (String.eqb_spec (d_solver d) "auto") as [E|E]; [rewrite E in H; cbn in H; intuition discriminate|]. apply mem_In in H. rewrite H. reflexivity.
  - intros H _. destruct (String.eqb_spec (k_solver k) "auto") as [E|E]; [rewrite E in H; cbn in H; intuition discriminate|]. apply mem_In in H. rewrite H. reflexivity.
Qed.
Lemma good_concrete l : good_lin l -> known l = true -> auto l = false -> concrete l.
Proof.
  destruct l as [d|k|a|]; cbn [good_lin known auto concrete]; intros G K A; try discriminate K; try exact I; apply String.eqb_neq in A.
  - destruct G as [G _]. cbn in *. intuition congruence.
  - cbn in *. intuition congruence.
Qed.
Lemma auto_shape e g l l' : known l = true -> resolve_auto e g l = Ret l' ->
  is_direct l' = is_direct l /\ (is_amg l -> l' = l) /\ (is_amg l' -> l' = l) /\ (~ is_auto l -> l' = l).
Proof.
  intros K. unfold resolve_auto. destruct l as [d|k|a|]; try discriminate K.
  - destruct (String.eqb_spec (d_solver d) "auto") as [E|E].
    + destruct (resolve_direct e d _ _); cbn; try discriminate. intros H. injection H as <-. cbn. intuition congruence.
    + intros H. injection H as <-. auto.
  - destruct (String.eqb_spec (k_solver k) "auto") as [E|E].
    + destruct (resolve_iterative k _); cbn; try discriminate. intros H. injection H as <-. cbn. intuition congruence.
    + intros H. injection H as <-. auto.
  - intros H. injection H as <-. auto.
Qed.
Lemma stage e g (needs : bool) l : good_lin l -> known l = true -> (is_auto l -> needs = true) ->
  let S := if needs then resolve_auto e g l else Ret l in
  (ready e l <-> exists l1, S = Ret l1) /\
  (forall l1, S = Ret l1 -> good_lin l1 /\ known l1 = true /\ auto l1 = false /\ is_direct l1 = is_direct l /\ (is_amg l -> l1 = l) /\ (is_amg l1 -> l1 = l) /\
     ready e l1 /\ (named e l1 <-> named e l)).
Proof.
  intros G K N S. destruct needs.
  - split; [apply auto_ret; assumption|]. intros l1 H. destruct (auto_ok _ _ _ _ G K H) as (_ & A2 & A3 & A4 & _). destruct (auto_shape _ _ _ _ K H) as (B1 & B2 & B3 & B4).
    split; [exact A2|]. split; [exact A4|]. split; [exact A3|]. split; [exact B1|]. split; [exact B2|]. split; [exact B3|].
    assert (NA : ~ is_auto l1) by (rewrite <- auto_true, A3; discriminate). split.
    + destruct l1; cbn in *; try exact I; try discriminate A4. intros X. contradiction.
    + destruct l as [d|k|a|]; try discriminate K.
      * destruct (string_dec (d_solver d) "auto") as [E|E]; [|rewrite (B4 E); tauto]. unfold S, resolve_auto in H. rewrite E in H. cbn [String.eqb Ascii.eqb Bool.eqb] in H.
        destruct (resolve_direct e d _ _) as [d'| | |] eqn:R; cbn in H; try discriminate. injection H as <-. destruct (direct_ok _ _ _ _ _ G R) as (_ & _ & _ & U). cbn [named]. split; [congruence|auto].
      * destruct l1; cbn in B1 |- *; try discriminate B1; tauto.
      * rewrite (B2 I). tauto.
  - assert (NA : ~ is_auto l) by (intros X; discriminate (N X)). assert (RD : ready e l) by (destruct l; cbn in *; try exact I; try discriminate K; contradiction).
    split; [split; [intros _; eexists; reflexivity|intros _; exact RD]|]. intros l1 H. injection H as <-.
    assert (A : auto l = false) by (destruct (auto l) eqn:A; [elim NA; apply auto_true; exact A|reflexivity]). repeat (split; [auto; fail|]). tauto.
Qed.

(** create_solver accepts exactly the supported combinations. *)
Theorem C39_accepts :
  forall e g, good_lin (wanted_fwd g) -> good_lin (wanted_adj g) -> ((exists pl, create_solver e g = Ret pl) <-> supported e g).
Proof.
  intros e g GF GA. unfold create_solver, supported. cbv zeta.
  destruct (g_extra g && g_linear g) eqn:E1.
  { apply andb_true_iff in E1. split; [intros [pl X]; discriminate X|intros [X _]; elim X; tauto]. }
  destruct (g_extra g && g_P g) eqn:E2.
  { apply andb_true_iff in E2. split; [intros [pl X]; discriminate X|intros [X _]; elim X; tauto]. }
  assert (X0 : ~ (g_extra g = true /\ (g_linear g = true \/ g_P g = true))).
  { intros [Y [Z|Z]]; rewrite Y, Z in *; discriminate. } clear E1 E2.
  destruct (g_P g) eqn:EP.
  - replace (match g_opts g with Some l => l | None => Krylov default_krylov end) with (wanted_fwd g) by (unfold wanted_fwd; rewrite EP; reflexivity).
    fold (wanted_adj g). unfold create_reduced.
    destruct (known (wanted_fwd g)) eqn:KF; [|split; [intros [pl Y]; discriminate Y|intros (_ & Y & _); destruct (wanted_fwd g); try discriminate KF; contradiction]].
    destruct (known (wanted_adj g)) eqn:KA; [|split; [intros [pl Y]; discriminate Y|intros (_ & _ & Y & _); destruct (wanted_adj g); try discriminate KA; contradiction]].
    cbn [negb]. destruct (g_pairing_ok g); [|split; [intros [pl Y]; discriminate Y|intros (_ & _ & _ & Y & _); specialize (Y eq_refl); discriminate Y]]. cbn [negb].
    pose proof (reduced_ret e (g_view g) _ GF) as RF. pose proof (reduced_ret e (g_view g) _ GA) as RA. split.
    + intros [pl H]. destruct (reduced_side e (g_view g) (wanted_fwd g)) as [f| | |]; try discriminate H. cbn [bind] in H.
      destruct (reduced_side e (g_view g) (wanted_adj g)) as [a| | |]; try discriminate H.
      split; [exact X0|]. split; [apply RF; eauto|]. split; [apply RA; eauto|]. split; [auto|]. split; [discriminate|]. split; discriminate.
    + intros (_ & A & B & _). apply RF in A. apply RA in B. destruct A as [f ->], B as [a ->]. cbn. eauto.
  - replace (match g_opts g with Some l => l | None => Direct default_direct end) with (wanted_fwd g) by (unfold wanted_fwd; rewrite EP; reflexivity).
    set (oa := match g_adj g with AdjOther l => Some l | _ => None end).
    assert (WA : wanted_adj g = match oa with Some a => a | None => wanted_fwd g end) by (unfold wanted_adj, oa; destruct (g_adj g); reflexivity).
    clearbody oa. set (needs := auto (wanted_fwd g) || match oa with Some a => auto a | None => false end).
    assert (NF : is_auto (wanted_fwd g) -> needs = true) by (intros Y; apply auto_true in Y; unfold needs; rewrite Y; reflexivity).
    assert (NA : forall a, oa = Some a -> is_auto a -> needs = true) by (intros a -> Y; apply auto_true in Y; unfold needs; rewrite Y; apply orb_true_r).
    assert (NN : needs = true <-> is_auto (wanted_fwd g) \/ is_auto (wanted_adj g)).
    { split; [|intros [Y|Y]; [auto|rewrite WA in Y; destruct oa as [a|]; [eapply NA; eauto|auto]]]. unfold needs. rewrite orb_true_iff. intros [Y|Y]; [left; apply auto_true, Y|]. right. rewrite WA. destruct oa; [apply auto_true, Y|discriminate Y]. }
    clearbody needs. destruct (needs && negb (g_traced g)) eqn:EN.
    { apply andb_true_iff in EN. destruct EN as [EN ET]. split; [intros [pl Y]; discriminate Y|]. intros (_ & _ & _ & _ & Y & _). rewrite (Y eq_refl (proj1 NN EN)) in ET. discriminate ET. }
    assert (TR : is_auto (wanted_fwd g) \/ is_auto (wanted_adj g) -> g_traced g = true). { intros Y. apply NN in Y. rewrite Y in EN. destruct (g_traced g); [reflexivity|discriminate EN]. } clear EN NN.
    destruct (known (wanted_fwd g)) eqn:KF; [|split; [intros [pl Y]; discriminate Y|intros (_ & Y & _); destruct (wanted_fwd g); try discriminate KF; contradiction]]. cbn [negb].
    destruct (match oa with Some a => known a | None => true end) eqn:KA; cbn [negb].
    2: { split; [intros [pl Y]; discriminate Y|]. intros (_ & _ & Y & _). rewrite WA in Y. destruct oa as [a|]; [destruct a; try discriminate KA; contradiction|discriminate KA]. }
    destruct (stage e g needs _ GF KF NF) as [SF1 SF2].
    destruct (if needs then resolve_auto e g (wanted_fwd g) else Ret (wanted_fwd g)) as [f1| | |] eqn:RF; cbn [bind];
      try (split; [intros [pl Y]; discriminate Y|intros (_ & Y & _); apply SF1 in Y; destruct Y as [? Y]; discriminate Y]).
    destruct (SF2 f1 eq_refl) as (G1 & K1 & A1 & D1 & M1 & M1' & R1 & N1). clear SF2 RF. assert (RDF : ready e (wanted_fwd g)) by (apply SF1; eauto). clear SF1.
    assert (SA : (ready e (wanted_adj g) <-> exists oa1, match oa with None => Ret None | Some a => bind (if needs then resolve_auto e g a else Ret a) (fun a => Ret (Some a)) end = Ret oa1) /\
      (forall oa1, match oa with None => Ret None | Some a => bind (if needs then resolve_auto e g a else Ret a) (fun a => Ret (Some a)) end = Ret oa1 ->
         (oa1 = None <-> oa = None) /\
         let a1 := match oa1 with Some a => a | None => f1 end in good_lin a1 /\ known a1 = true /\ auto a1 = false /\
         (is_amg (wanted_adj g) -> a1 = wanted_adj g) /\ (is_amg a1 -> a1 = wanted_adj g) /\ ready e a1 /\ (named e a1 <-> named e (wanted_adj g)))).
    { rewrite WA in *. destruct oa as [a|].
      - destruct (stage e g needs a GA KA (NA a eq_refl)) as [S1 S2]. destruct (if needs then resolve_auto e g a else Ret a) as [a1| | |] eqn:R; cbn [bind].
        + split; [rewrite S1; split; eauto|]. intros oa1 H. injection H as <-. split; [split; discriminate|]. destruct (S2 a1 eq_refl) as (? & ? & ? & ? & ? & ? & ? & ?). repeat (split; [assumption|]). assumption.
        + split; [rewrite S1; split; intros [? Y]; discriminate Y|discriminate].
        + split; [rewrite S1; split; intros [? Y]; discriminate Y|discriminate].
        + split; [rewrite S1; split; intros [? Y]; discriminate Y|discriminate].
      - split; [split; eauto|]. intros oa1 H. injection H as <-. split; [tauto|]. repeat (split; [assumption|]). assumption. }
    destruct SA as [SA1 SA2].
    destruct (match oa with None => Ret None | Some a => bind (if needs then resolve_auto e g a else Ret a) (fun a => Ret (Some a)) end) as [oa1| | |] eqn:RA; cbn [bind];
      try (split; [intros [pl Y]; discriminate Y|intros (_ & _ & Y & _); apply SA1 in Y; destruct Y as [? Y]; discriminate Y]).
    destruct (SA2 oa1 eq_refl) as (ON & G2 & K2 & A2 & M2 & M2' & R2 & N2). clear SA2. assert (RDA : ready e (wanted_adj g)) by (apply SA1; eauto). clear SA1 RA.
    assert (OWN : oa1 = None -> wanted_adj g = wanted_fwd g) by (intros Y; rewrite WA, (proj1 ON Y); reflexivity).
    set (a1 := match oa1 with Some a => a | None => f1 end) in *.
    assert (MF : is_amg f1 <-> is_amg (wanted_fwd g)) by (split; intros Y; [rewrite <- (M1' Y)|rewrite (M1 Y)]; exact Y).
    assert (MA : is_amg a1 <-> is_amg (wanted_adj g)) by (split; intros Y; [rewrite <- (M2' Y)|rewrite (M2 Y)]; exact Y).
    destruct (g_linear g) eqn:EL.
    + unfold create_linear. rewrite K1. fold a1. rewrite K2. cbn [negb].
      pose proof (lower_ret e g true f1 G1 K1) as [LF1 LF2]. pose proof (lower_ret e g true a1 G2 K2) as [LA1 LA2]. split.
      * intros [pl H]. destruct (lower_linear e g true f1) as [f2| | |] eqn:LF; cbn [bind] in H; try discriminate H.
        destruct (LF2 (ex_intro _ f2 eq_refl)) as (_ & B1 & B2).
        assert (LA : exists a2, lower_linear e g true a1 = Ret a2). { unfold a1. destruct oa1 as [a|]; [destruct (lower_linear e g true a) as [a2| | |]; try discriminate H; eauto|eauto]. }
        destruct (LA2 LA) as (_ & C1 & C2). split; [exact X0|]. split; [exact RDF|]. split; [exact RDA|]. split; [discriminate|]. split; [auto|].
        split; [intros _ _; split; [apply N1, B1|split; [apply N2, C1|intros [Y|Y]; [apply B2, MF, Y|apply C2, MA, Y]]]|discriminate].
      * intros (_ & _ & _ & _ & _ & Y & _). destruct (Y eq_refl eq_refl) as (Y1 & Y2 & Y3).
        destruct LF1 as [f2 ->]. { split; [exact R1|]. split; [apply N1, Y1|]. intros Z. apply Y3. left. apply MF, Z. } cbn [bind].
        assert (LA : exists a2, lower_linear e g true a1 = Ret a2). { apply LA1. split; [exact R2|]. split; [apply N2, Y2|]. intros Z. apply Y3. right. apply MA, Z. }
        unfold a1 in LA. destruct oa1 as [a|]; [destruct LA as [a2 ->]|]; cbn; eauto.
    + unfold create_newton.
      destruct (match f1 with Amg o => match a_rebuild o with Some r => negb (r =? 0)%Z | None => true end | _ => false end) eqn:RB.
      * split; [intros _|eauto]. split; [exact X0|]. split; [exact RDF|]. split; [exact RDA|]. split; [discriminate|]. split; [auto|]. split; [discriminate|].
        intros _ _ Y. elim Y. destruct f1 as [d|k|o|]; try discriminate RB. rewrite <- (M1' I). cbn. intros Z. rewrite Z in RB. discriminate RB.
      * assert (NR : ~ rebuilds (wanted_fwd g)).
        { intros Y. assert (Z : is_amg (wanted_fwd g)) by (destruct (wanted_fwd g); try contradiction; exact I). rewrite (M1 Z) in RB. destruct (wanted_fwd g); try contradiction. cbn in Y.
          destruct (a_rebuild a) as [r|]; [|discriminate RB]. apply negb_false_iff, Z.eqb_eq in RB. congruence. }
        set (tk := fun l => match l with Amg o => bind (amg_to_krylov o (g_traced g) (g_mp g (g_sym g))) (fun k => Ret (Krylov k)) | _ => Ret l end).
        assert (TK : forall l, good_lin l -> known l = true -> auto l = false -> (((is_amg l -> g_traced g = true) <-> exists l2, tk l = Ret l2) /\
           forall l2, tk l = Ret l2 -> concrete l2 /\ ~ is_amg l2 /\ is_direct l2 = is_direct l /\ is_direct l2 || is_krylov l2 = true)).
        { intros l Gl Kl Al. destruct l as [d|k|o|]; try discriminate Kl; cbn [tk is_amg].
          - split; [split; [eauto|tauto]|]. intros l2 H. injection H as <-. split; [apply good_concrete; assumption|]. auto.
          - split; [split; [eauto|tauto]|]. intros l2 H. injection H as <-. split; [apply good_concrete; assumption|]. auto.
          - pose proof (amg_ret o (g_traced g) (g_mp g (g_sym g)) Gl) as [P1 P2]. split.
            + split; [intros Y; destruct (P2 (Y I)) as [k ->]; cbn; eauto|]. intros [l2 H] _. apply P1. destruct (amg_to_krylov o _ _); try discriminate H. eauto.
            + intros l2 H. destruct (amg_to_krylov o _ _) as [k| | |] eqn:R; cbn in H; try discriminate H. injection H as <-. destruct (amg_ok _ _ _ _ Gl R) as (_ & C & _). auto. }
        destruct (TK f1 G1 K1 A1) as [T1 T2]. destruct (TK a1 G2 K2 A2) as [T3 T4]. fold (tk f1).
        assert (TA : forall f2, tk f1 = Ret f2 -> match oa1 with None => Ret f2 | Some (Amg o) => bind (amg_to_krylov o (g_traced g) (g_mp g (g_sym g))) (fun k => Ret (Krylov k)) | Some a => Ret a end = tk a1).
        { intros f2 H. unfold a1. destruct oa1 as [a|]; [destruct a; reflexivity|congruence]. }
        assert (CH : forall f2, is_direct f2 || is_krylov f2 = true -> is_direct f2 = is_direct (wanted_fwd g) ->
          ((if g_extra g && is_direct f2 then match g_view g with VFull => Ret tt | _ => ValErr end else if g_extra g && negb (is_krylov f2) then TypErr else Ret tt) = Ret tt <->
            (g_extra g = true -> is_direct (wanted_fwd g) = true -> g_view g = VFull))).
        { intros f2 Hf <-. destruct (g_extra g); cbn [andb]; [|split; [discriminate|auto]]. destruct (is_direct f2).
          - destruct (g_view g); (split; [intros H; try discriminate H; auto|intros H; specialize (H eq_refl eq_refl); try discriminate H; auto]).
          - cbn in Hf. rewrite Hf. cbn. split; [discriminate|auto]. }
        split.
        -- intros [pl H]. destruct (tk f1) as [f2| | |] eqn:E1; cbn [bind] in H; try discriminate H. rewrite (TA f2 eq_refl) in H. destruct (tk a1) as [a2| | |] eqn:E2; cbn [bind] in H; try discriminate H.
           split; [exact X0|]. split; [exact RDF|]. split; [exact RDA|]. split; [discriminate|]. split; [auto|]. split; [discriminate|]. intros _ _ _. split.
           ++ intros [Y|Y]; [apply T1; [eauto|apply MF, Y]|apply T3; [eauto|apply MA, Y]].
           ++ destruct (T2 f2 eq_refl) as (_ & _ & B1 & B2). apply (CH f2 B2); [congruence|].
              match type of H with bind ?c _ = _ => destruct c as [[]| | |]; cbn [bind] in H; try discriminate H end. reflexivity.
        -- intros (_ & _ & _ & _ & _ & _ & Y). destruct (Y eq_refl eq_refl NR) as [Y1 Y2].
           destruct (proj1 T1) as [f2 E1]. { intros Z. apply Y1. left. apply MF, Z. } destruct (proj1 T3) as [a2 E2]. { intros Z. apply Y1. right. apply MA, Z. }
           destruct (T2 f2 E1) as (B0 & B0' & B1 & B2). destruct (T4 a2 E2) as (C0 & C0' & _ & _).
           rewrite E1. cbn [bind]. rewrite (TA f2 E1), E2. cbn [bind]. rewrite (proj2 (CH f2 B2 (eq_trans B1 D1)) Y2). cbn [bind].
           rewrite (solve_ret _ B0 B0'), (solve_ret _ C0 C0'). cbn [bind]. destruct (g_extra g); [destruct (is_direct f2)|]; eauto.
Qed.
Print Assumptions C39_accepts.

(** Which error a refused request raises. *)
Theorem C39_rejects :
  forall e g,
    (g_extra g = true -> g_linear g = true \/ g_P g = true -> create_solver e g = ValErr) /\
    (g_extra g = false -> g_P g = true -> known (wanted_fwd g) = false \/ known (wanted_adj g) = false -> create_solver e g = ValErr) /\
    (g_extra g = false -> g_P g = false -> is_auto (wanted_fwd g) \/ is_auto (wanted_adj g) -> g_traced g = false -> create_solver e g = ValErr) /\
    (g_extra g = false -> g_P g = false -> ~ is_auto (wanted_fwd g) -> ~ is_auto (wanted_adj g) ->
       known (wanted_fwd g) = false \/ known (wanted_adj g) = false -> create_solver e g = TypErr).
Proof.
  intros e g. unfold create_solver. split; [|split; [|split]].
  - intros -> [-> | ->]; [reflexivity|]. cbn. destruct (g_linear g); reflexivity.
  - intros -> EP H. rewrite EP. cbn [andb]. cbv zeta. fold (wanted_adj g).
    replace (match g_opts g with Some l => l | None => Krylov default_krylov end) with (wanted_fwd g) by (unfold wanted_fwd; rewrite EP; reflexivity).
    fold (wanted_adj g). destruct H as [-> | ->]; [reflexivity|]. destruct (known (wanted_fwd g)); reflexivity.
  - intros -> EP H ->. rewrite EP. cbn [andb]. cbv zeta.
    replace (match g_opts g with Some l => l | None => Direct default_direct end) with (wanted_fwd g) by (unfold wanted_fwd; rewrite EP; reflexivity).
    assert (N : auto (wanted_fwd g) || match match g_adj g with AdjOther l => Some l | _ => None end with Some a => auto a | None => false end = true).
    { apply orb_true_iff. unfold wanted_adj in H. destruct (g_adj g); rewrite <- !auto_true in H; tauto. }
    rewrite N. reflexivity.
  - intros -> EP HF HA H. rewrite EP. cbn [andb]. cbv zeta.
    replace (match g_opts g with Some l => l | None => Direct default_direct end) with (wanted_fwd g) by (unfold wanted_fwd; rewrite EP; reflexivity).
    assert (AF : auto (wanted_fwd g) = false) by (destruct (auto (wanted_fwd g)) eqn:A; [elim HF; apply auto_true, A|reflexivity]).
    assert (AA : auto (wanted_adj g) = false) by (destruct (auto (wanted_adj g)) eqn:A; [elim HA; apply auto_true, A|reflexivity]).
    unfold wanted_adj in AA, H. rewrite AF. destruct (known (wanted_fwd g)) eqn:KF; cbn [negb].
    + destruct (g_adj g); [destruct H; congruence|destruct H; congruence|]. rewrite AA. cbn. destruct H as [H|H]; [congruence|]. rewrite H. reflexivity.
    + destruct (g_adj g); [reflexivity|reflexivity|]. rewrite AA. reflexivity.
Qed.
Print Assumptions C39_rejects.

(** What is silently dropped. *)
Definition cpu_env : env := {| e_backend := CPU; e_spineax := false; e_cholmod := true; e_umfpack := true |}.
Definition amg_opts : amg := {| a_solver := "auto"; a_tol := 1 # 1000; a_atol := 0; a_maxiter := 100; a_restart := None; a_rebuild := None; a_common := default_common |}.
Definition spsolve_opts : direct := {| d_solver := "spsolve"; d_cudss := default_cudss; d_sk := default_sksparse; d_reuse := false; d_common := default_common |}.
Definition cg_opts : krylov :=
  {| k_solver := "cg"; k_tol := 1 # 1000; k_atol := 0; k_maxiter := 10; k_pre := PNone; k_jacobi := false; k_shift := 0; k_restart := None; k_x0 := None; k_common := default_common |}.
Definition base_args : args :=
  {| g_opts := None; g_adj := AdjDefault; g_linear := false; g_P := false; g_traced := true; g_extra := false; g_sym := false; g_view := VFull; g_mp := fun _ => MSpd; g_pairing_ok := true |}.
(** The elimination mode asked for is ignored by linear and reduced solvers. *)
Theorem C39_elimination_refuted :
  exists e g pl, g_sym g = false /\ create_solver e g = Ret pl /\ pl_kind pl = KLinear /\ pl_sym pl = true.
Proof.
  exists cpu_env, {| g_opts := None; g_adj := AdjDefault; g_linear := true; g_P := false; g_traced := true; g_extra := false; g_sym := false; g_view := VFull; g_mp := fun _ => MSpd; g_pairing_ok := true |}.
  eexists. split; [reflexivity|]. split; [vm_compute; reflexivity|]. split; reflexivity.
Qed.
Print Assumptions C39_elimination_refuted.
(** With AMG at its default rebuild policy the extra residual and the adjoint options are ignored. *)
Theorem C39_amg_refuted :
  exists e g pl, g_extra g = true /\ g_adj g = AdjOther (Direct spsolve_opts) /\ create_solver e g = Ret pl /\
    pl_kind pl = KNewtonAmg /\ pl_extra pl = false /\ ~ honours (Direct spsolve_opts) (pl_adj pl).
Proof.
  exists cpu_env, {| g_opts := Some (Amg amg_opts); g_adj := AdjOther (Direct spsolve_opts); g_linear := false; g_P := false; g_traced := true; g_extra := true; g_sym := true; g_view := VFull;
    g_mp := fun _ => MSpd; g_pairing_ok := true |}.
  eexists. split; [reflexivity|]. split; [reflexivity|]. split; [vm_compute; reflexivity|]. split; [reflexivity|]. split; [reflexivity|]. intros [].
Qed.
Print Assumptions C39_amg_refuted.
(** Krylov forward, direct adjoint and an extra residual: accepted, but the direct solver is
    handed a matrix-free operator. *)
Theorem C39_extra_direct_adjoint_refuted :
  exists e g pl, create_solver e g = Ret pl /\ pl_kind pl = KNewtonExtraKrylov /\ is_direct (pl_adj pl) = true /\ pl_adj_matfree pl = true.
Proof.
  exists cpu_env, {| g_opts := Some (Krylov cg_opts); g_adj := AdjOther (Direct spsolve_opts); g_linear := false; g_P := false; g_traced := true; g_extra := true; g_sym := true; g_view := VFull;
    g_mp := fun _ => MSpd; g_pairing_ok := true |}.
  eexists. split; [vm_compute; reflexivity|]. split; [reflexivity|]. split; reflexivity.
Qed.
Print Assumptions C39_extra_direct_adjoint_refuted.
(** Adding P switches to the one-solve reduced path even for a nonlinear request. *)
Theorem C39_reduced_ignores_linear :
  forall e g, g_P g = true ->
    create_solver e {| g_opts := g_opts g; g_adj := g_adj g; g_linear := false; g_P := true; g_traced := g_traced g; g_extra := false; g_sym := g_sym g; g_view := g_view g; g_mp := g_mp g; g_pairing_ok := g_pairing_ok g |} =
    create_solver e {| g_opts := g_opts g; g_adj := g_adj g; g_linear := true; g_P := true; g_traced := g_traced g; g_extra := false; g_sym := g_sym g; g_view := g_view g; g_mp := g_mp g; g_pairing_ok := g_pairing_ok g |}.
Proof. reflexivity. Qed.
Print Assumptions C39_reduced_ignores_linear.

(** Cases: the default request, and one with an AMG adjoint. *)
Example C39_example :
  supported cpu_env base_args /\ good_lin (wanted_fwd base_args) /\
  (exists pl, create_solver cpu_env base_args = Ret pl /\ pl_kind pl = KNewton /\ match pl_fwd pl with Direct d => d_solver d = "cholmod" | _ => False end).
Proof.
  split; [|split].
  - apply C39_accepts; try (split; [left; reflexivity|reflexivity]). eexists. vm_compute. reflexivity.
  - split; [left; reflexivity|reflexivity].
  - eexists. split; [vm_compute; reflexivity|]. split; reflexivity.
Qed.
