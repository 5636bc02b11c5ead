(** Property C84, first part: the ply-by-ply quadrature. *)
From Coq Require Import Reals List Arith Bool Lia Lra.
From Verif Require Import Tmc_Model Tmc_Props Adaptive_Model Layered_Model LayeredRot_Props.
Import ListNotations.
Open Scope R_scope.

(** ** Polynomials and what a quadrature rule is asked to do *)
Fixpoint peval (c : list R) (x : R) : R := match c with [] => 0 | a :: r => a + x * peval r x end.
(** Antiderivative, coefficient by coefficient. *)
Fixpoint prim_from (d : nat) (c : list R) : list R := match c with [] => [] | a :: r => a / INR (S d) :: prim_from (S d) r end.
Definition prim (c : list R) (x : R) : R := x * peval (prim_from 0 c) x.
Definition integral (c : list R) (a b : R) : R := prim c b - prim c a.
Definition wsum (g : list (R * R)) (f : R -> R) : R := rsuml (map (fun xw => snd xw * f (fst xw)) g).
(** A rule on [-1, 1]: points inside, positive weights, exact for polynomials of degree up to D. *)
Definition gauss_rule (g : list (R * R)) (D : nat) : Prop :=
  (forall xw, In xw g -> -1 <= fst xw <= 1 /\ 0 < snd xw) /\
  forall c, (length c <= D + 1)%nat -> wsum g (peval c) = integral c (-1) 1.

Lemma rsuml_app a b : rsuml (a ++ b) = rsuml a + rsuml b.
Proof. unfold rsuml. induction a as [|x r IH]; cbn [app fold_right]; [ring|]. rewrite IH. ring. Qed.
Lemma rsuml_scale c l : rsuml (map (Rmult c) l) = c * rsuml l.
Proof. unfold rsuml. induction l as [|x r IH]; cbn [map fold_right]; [ring|]. rewrite IH. ring. Qed.
Lemma rsuml_ext A (l : list A) f g : (forall x, In x l -> f x = g x) -> rsuml (map f l) = rsuml (map g l).
Proof. intros H. rewrite (map_ext_in _ _ _ H). reflexivity. Qed.
Lemma rsuml_flat A B (l : list A) (h : A -> list B) f : rsuml (map f (flat_map h l)) = rsuml (map (fun a => rsuml (map f (h a))) l).
Proof. induction l as [|x r IH]; [reflexivity|]. cbn [flat_map map]. rewrite map_app, rsuml_app, IH. reflexivity. Qed.
Lemma rsuml_mul A (l : list A) c f : rsuml (map (fun x => c * f x) l) = c * rsuml (map f l).
Proof. unfold rsuml. induction l as [|x r IH]; cbn [map fold_right]; [ring|]. rewrite IH. ring. Qed.
Lemma rsuml_plus A (l : list A) f g : rsuml (map (fun x => f x + g x) l) = rsuml (map f l) + rsuml (map g l).
Proof. unfold rsuml. induction l as [|x r IH]; cbn [map fold_right]; [ring|]. rewrite IH. ring. Qed.

(** ** Affine change of variable *)
Fixpoint padd (a b : list R) : list R := match a, b with [], _ => b | _, [] => a | x :: r, y :: s => (x + y) :: padd r s end.
Lemma padd_eval a b x : peval (padd a b) x = peval a x + peval b x.
Proof. revert b. induction a as [|p r IH]; intros [|q s]; cbn [padd peval]; try ring. rewrite IH. ring. Qed.
Lemma padd_length a b : length (padd a b) = Nat.max (length a) (length b).
Proof. revert b. induction a as [|p r IH]; intros [|q s]; cbn; try reflexivity. rewrite IH. reflexivity. Qed.
Lemma pscale_eval k a x : peval (map (Rmult k) a) x = k * peval a x.
Proof. induction a as [|p r IH]; cbn [map peval]; [ring|]. rewrite IH. ring. Qed.
(** Composition with [al + be x]; the same number of coefficients. *)
Fixpoint paff (al be : R) (c : list R) : list R :=
  match c with [] => [] | a :: r => let q := paff al be r in padd (a :: map (Rmult be) q) (map (Rmult al) q) end.
Lemma paff_length al be c : length (paff al be c) = length c.
Proof. induction c as [|a r IH]; [reflexivity|]. cbn [paff]. rewrite padd_length. cbn [length]. rewrite !map_length, IH. lia. Qed.
Lemma paff_eval al be c x : peval (paff al be c) x = peval c (al + be * x).
Proof. induction c as [|a r IH]; [reflexivity|]. cbn [paff]. rewrite padd_eval. cbn [peval]. rewrite !pscale_eval, IH. ring. Qed.

Lemma prim_deriv_gen c : forall d x, (0 < d)%nat ->
  derivable_pt_lim (fun y => y ^ d * peval (prim_from (d - 1) c) y) x (x ^ (d - 1) * peval c x).
Proof.
  induction c as [|a r IH]; intros d x Hd.
  - cbn [prim_from peval]. rewrite Rmult_0_r. apply (derivable_pt_lim_ext (fun _ => 0)).
    + intros y. ring.
    + apply derivable_pt_lim_const.
  - cbn [prim_from peval]. replace (S (d - 1)) with d by lia.
    apply (derivable_pt_lim_ext (fun y => (a / INR d) * y ^ d + y ^ S d * peval (prim_from (S d - 1) r) y)).
    + intros y. replace (S d - 1)%nat with d by lia. cbn [pow]. ring.
    + replace (x ^ (d - 1) * (a + x * peval r x)) with ((a / INR d) * (INR d * x ^ pred d) + x ^ (S d - 1) * peval r x).
      * apply derivable_pt_lim_plus; [apply derivable_pt_lim_scal, derivable_pt_lim_pow|]. apply IH. lia.
      * assert (INR d <> 0) by (apply not_0_INR; lia). replace (S d - 1)%nat with (S (d - 1)) by lia. replace (pred d) with (d - 1)%nat by lia. cbn [pow]. field. assumption.
Qed.
Lemma prim_deriv c x : derivable_pt_lim (prim c) x (peval c x).
Proof.
  pose proof (prim_deriv_gen c 1 x ltac:(lia)) as H. cbn [Nat.sub pow] in H. rewrite Rmult_1_l in H.
  apply (derivable_pt_lim_ext (fun y => y * 1 * peval (prim_from 0 c) y)); [|exact H]. intros y. unfold prim. ring.
Qed.
Lemma same_deriv F G f : (forall x, derivable_pt_lim F x (f x)) -> (forall x, derivable_pt_lim G x (f x)) -> forall a b, F b - F a = G b - G a.
Proof.
  intros HF HG a b. assert (HD : forall x, derivable_pt_lim (F - G)%F x 0).
  { intros x. replace 0 with (f x - f x) by ring. apply derivable_pt_lim_minus; [apply HF|apply HG]. }
  assert (pr : derivable (F - G)%F) by (intros x; exists 0; apply HD).
  assert (C : constant (F - G)%F).
  { apply (null_derivative_1 _ pr). intros x. apply (uniqueness_limite (F - G)%F x); [|apply HD]. apply derive_pt_eq_1 with (pr x). reflexivity. }
  pose proof (C a b) as E. unfold minus_fct in E. lra.
Qed.
Lemma integral_affine al be c a b : be * integral (paff al be c) a b = integral c (al + be * a) (al + be * b).
Proof.
  unfold integral. pose proof (same_deriv (fun x => be * prim (paff al be c) x) (fun x => prim c (al + be * x)) (fun x => be * peval c (al + be * x))) as S.
  rewrite <- (S) with (a := a) (b := b); [ring| |].
  - intros x. rewrite <- paff_eval. apply (derivable_pt_lim_scal (prim (paff al be c)) be x). apply prim_deriv.
  - intros x. rewrite Rmult_comm. apply (derivable_pt_lim_comp (fun x => al + be * x) (prim c)); [|apply prim_deriv].
    assert (H : derivable_pt_lim (fun x => al + be * x) x (0 + be * 1)).
    { apply (derivable_pt_lim_plus (fun _ => al) (fun x => be * x)); [apply derivable_pt_lim_const|]. apply (derivable_pt_lim_scal id). apply derivable_pt_lim_id. }
    replace (0 + be * 1) with be in H by ring. exact H.
Qed.
Lemma wsum_unit g f : wsum (unit_rule g) f = 1 / 2 * wsum g (fun x => f (1 / 2 * (x + 1))).
Proof. unfold wsum, unit_rule. rewrite map_map. cbn [fst snd]. rewrite <- rsuml_mul. apply rsuml_ext. intros; ring. Qed.
(** On the interval [a, b], from a rule exact on [-1, 1]. *)
Lemma ply_rule g D c a b : gauss_rule g D -> (length c <= D + 1)%nat ->
  (b - a) * wsum (unit_rule g) (fun x => peval c (a + (b - a) * x)) = integral c a b.
Proof.
  intros (_ & H) L. rewrite wsum_unit. set (be := (b - a) / 2). set (al := (a + b) / 2).
  transitivity (be * wsum g (peval (paff al be c))).
  - unfold be. transitivity ((b - a) / 2 * wsum g (fun x => peval c (a + (b - a) * (1 / 2 * (x + 1))))); [field|]. f_equal.
    unfold wsum. apply rsuml_ext. intros xw _. rewrite paff_eval. do 2 f_equal. unfold al, be. field.
  - rewrite H by (rewrite paff_length; exact L). rewrite integral_affine. f_equal; unfold al, be; field.
Qed.
Lemma unit_exact g D c : gauss_rule g D -> (length c <= D + 1)%nat -> wsum (unit_rule g) (peval c) = integral c 0 1.
Proof.
  intros H L. rewrite <- (ply_rule g D c 0 1 H L). rewrite Rminus_0_r, Rmult_1_l. unfold wsum. apply rsuml_ext. intros xw _. rewrite Rplus_0_l, Rmult_1_l. reflexivity.
Qed.

(** ** Interfaces *)
Lemma cumsum_length l : forall s, length (cumsum s l) = length l.
Proof. induction l as [|x r IH]; intros s; [reflexivity|]. cbn. rewrite IH. reflexivity. Qed.
Lemma cumsum_nth l : forall s k, (k < length l)%nat -> nth k (cumsum s l) 0 = s + rsuml (firstn (S k) l).
Proof.
  induction l as [|x r IH]; intros s k Hk; [cbn in Hk; lia|]. cbn [cumsum]. destruct k as [|k]; cbn [nth].
  - cbn. ring.
  - rewrite IH by (cbn in Hk; lia). cbn [firstn rsuml fold_right]. unfold rsuml. ring.
Qed.
(** Interface k sits at the summed thickness of the plies below it, over the total. *)
Lemma interfaces_nth thick k : (k <= length thick)%nat -> nth k (interfaces thick) 0 = rsuml (firstn k thick) / rsuml thick.
Proof.
  intros Hk. unfold interfaces. destruct k as [|k]; cbn [nth]; [cbn; unfold Rdiv; ring|].
  rewrite (nth_indep _ 0 (0 / rsuml thick)) by (rewrite map_length, cumsum_length; lia).
  rewrite (map_nth (fun x => x / rsuml thick)), cumsum_nth by lia. rewrite Rplus_0_l. reflexivity.
Qed.
Lemma firstn_S_sum l k : (k < length l)%nat -> rsuml (firstn (S k) l) = rsuml (firstn k l) + nth k l 0.
Proof.
  revert l. induction k as [|k IH]; intros [|x r] Hk; cbn in Hk; try lia.
  - cbn. ring.
  - change (x + rsuml (firstn (S k) r) = x + rsuml (firstn k r) + nth k r 0). rewrite IH by lia. ring.
Qed.
Lemma ply_height thick k : (k < length thick)%nat -> nth (k + 1) (interfaces thick) 0 - nth k (interfaces thick) 0 = nth k thick 0 / rsuml thick.
Proof.
  intros Hk. rewrite !interfaces_nth by lia. replace (k + 1)%nat with (S k) by lia. rewrite firstn_S_sum by exact Hk. unfold Rdiv. ring.
Qed.

(** ** Exactness *)
Definition qsum (pts : list qpoint) (f : qpoint -> R) : R := rsuml (map (fun q => q_w q * f q) pts).
Definition term := (list R * list R * list R)%type.
Definition term_at (t : term) (q : qpoint) : R := peval (fst (fst t)) (q_xi q) * peval (snd (fst t)) (q_eta q) * peval (snd t) (q_zeta q).
Definition degrees_ok (Di Dz : nat) (t : term) : Prop := (length (fst (fst t)) <= Di + 1 /\ length (snd (fst t)) <= Di + 1 /\ length (snd t) <= Dz + 1)%nat.
Definition term_integral (t : term) (a b : R) : R := integral (fst (fst t)) 0 1 * integral (snd (fst t)) 0 1 * integral (snd t) a b.
Lemma ply_term gi gz Di Dz thick k t : gauss_rule gi Di -> gauss_rule gz Dz -> degrees_ok Di Dz t ->
  qsum (ply_points gi gz thick k) (term_at t) = term_integral t (nth k (interfaces thick) 0) (nth (k + 1) (interfaces thick) 0).
Proof.
  intros Hi Hz (L1 & L2 & L3). destruct t as [[px py] pz]. cbn [fst snd] in *. unfold term_integral. cbn [fst snd].
  set (a := nth k (interfaces thick) 0). set (b := nth (k + 1) (interfaces thick) 0).
  rewrite <- (unit_exact gi Di px Hi L1), <- (unit_exact gi Di py Hi L2), <- (ply_rule gz Dz pz a b Hz L3).
  unfold qsum, ply_points. fold a b. rewrite rsuml_flat. unfold wsum.
  rewrite (rsuml_ext _ _ _ (fun zw => (wsum (unit_rule gi) (peval px) * wsum (unit_rule gi) (peval py) * (b - a)) * (snd zw * peval pz (a + (b - a) * fst zw)))).
  - rewrite rsuml_mul. unfold wsum. ring.
  - intros zw _. rewrite rsuml_flat.
    rewrite (rsuml_ext _ _ _ (fun xw => (wsum (unit_rule gi) (peval py) * (b - a) * (snd zw * peval pz (a + (b - a) * fst zw))) * (snd xw * peval px (fst xw)))).
    + rewrite rsuml_mul. unfold wsum. ring.
    + intros xw _. rewrite map_map. cbn [q_w term_at q_xi q_eta q_zeta fst snd].
      rewrite (rsuml_ext _ _ _ (fun yw => ((b - a) * (snd zw * peval pz (a + (b - a) * fst zw)) * (snd xw * peval px (fst xw))) * (snd yw * peval py (fst yw)))).
      * rewrite rsuml_mul. unfold wsum. ring.
      * intros yw _. unfold term_at. cbn [q_w q_xi q_eta q_zeta fst snd]. ring.
Qed.
Lemma ply_of_points gi gz thick k q : In q (ply_points gi gz thick k) -> q_ply q = k.
Proof.
  unfold ply_points. intros H. apply in_flat_map in H. destruct H as (zw & _ & H). apply in_flat_map in H. destruct H as (xw & _ & H).
  apply in_map_iff in H. destruct H as (yw & <- & _). reflexivity.
Qed.
(** Every function that is a polynomial inside each ply (a sum of products of polynomials in the three directions, other
    polynomials in other plies) is integrated exactly, ply by ply. *)
Theorem C84_exact gi gz Di Dz thick (f : nat -> list term) : gauss_rule gi Di -> gauss_rule gz Dz ->
  (forall k t, (k < length thick)%nat -> In t (f k) -> degrees_ok Di Dz t) ->
  qsum (layered_quadrature gi gz thick) (fun q => rsuml (map (fun t => term_at t q) (f (q_ply q)))) =
  rsuml (map (fun k => rsuml (map (fun t => term_integral t (nth k (interfaces thick) 0) (nth (k + 1) (interfaces thick) 0)) (f k))) (seq 0 (length thick))).
Proof.
  intros Hi Hz Hd. unfold qsum, layered_quadrature. rewrite rsuml_flat. apply rsuml_ext. intros k Hk. apply in_seq in Hk.
  rewrite (rsuml_ext _ _ _ (fun q => q_w q * rsuml (map (fun t => term_at t q) (f k)))) by (intros q Hq; rewrite (ply_of_points gi gz thick k q Hq); reflexivity).
  assert (Hf : forall t, In t (f k) -> degrees_ok Di Dz t) by (intros t Ht; apply (Hd k); [lia|exact Ht]).
  induction (f k) as [|t r IH].
  - cbn [map rsuml fold_right]. rewrite (rsuml_ext _ _ _ (fun _ => 0 * 0)) by (intros; cbn; ring). rewrite rsuml_mul. cbn. ring.
  - cbn [map rsuml fold_right]. rewrite (rsuml_ext _ _ _ (fun q => q_w q * term_at t q + q_w q * rsuml (map (fun t => term_at t q) r))) by (intros; unfold rsuml; ring).
    rewrite rsuml_plus. fold (qsum (ply_points gi gz thick k) (term_at t)). rewrite (ply_term gi gz Di Dz thick k t Hi Hz) by (apply Hf; left; reflexivity).
    rewrite IH by (intros t' Ht'; apply Hf; right; exact Ht'). reflexivity.
Qed.
Print Assumptions C84_exact.

Lemma integral_one a b : integral [1] a b = b - a.
Proof. unfold integral, prim. cbn. field. Qed.
Lemma integral_monomial d a b : integral (repeat 0 d ++ [1]) a b = (b ^ (d + 1) - a ^ (d + 1)) / INR (d + 1).
Proof.
  assert (P : forall d s x, peval (prim_from s (repeat 0 d ++ [1])) x = x ^ d / INR (S (s + d))).
  { clear. induction d as [|d IH]; intros s x.
    - cbn [repeat app prim_from peval pow]. rewrite Nat.add_0_r. unfold Rdiv. ring.
    - change (repeat 0 (S d) ++ [1]) with (0 :: (repeat 0 d ++ [1])). cbn [prim_from peval]. rewrite IH. replace (S s + d)%nat with (s + S d)%nat by lia. cbn [pow]. unfold Rdiv. ring. }
  unfold integral, prim. rewrite !P. replace (S (0 + d)) with (d + 1)%nat by lia. replace (d + 1)%nat with (S d) at 3 4 by lia. cbn [pow]. unfold Rdiv. ring.
Qed.
Lemma peval_monomial d x : peval (repeat 0 d ++ [1]) x = x ^ d.
Proof. induction d as [|d IH]; cbn [repeat app peval pow]; [ring|]. rewrite IH. ring. Qed.
Lemma pair_length A B (h : B -> A -> qpoint) (l : list A) (l' : list B) : length (flat_map (fun x => map (h x) l) l') = (length l' * length l)%nat.
Proof. induction l' as [|x r IH]; [reflexivity|]. cbn. rewrite app_length, map_length, IH. reflexivity. Qed.
Lemma flat_const A B (h : A -> list B) (l : list A) n : (forall a, In a l -> length (h a) = n) -> length (flat_map h l) = (length l * n)%nat.
Proof. intros H. induction l as [|x r IH]; [reflexivity|]. cbn. rewrite app_length, H, IH; [reflexivity| |left; reflexivity]. intros a Ha. apply H. right. exact Ha. Qed.
Lemma firstn_nonneg l k : (forall t, In t l -> 0 <= t) -> 0 <= rsuml (firstn k l).
Proof.
  intros H. revert l H. induction k as [|k IH]; intros [|x r] H; cbn; try lra. specialize (IH r ltac:(intros t Ht; apply H; right; exact Ht)). specialize (H x (or_introl eq_refl)). unfold rsuml in *. lra.
Qed.
Lemma firstn_le l k : (forall t, In t l -> 0 <= t) -> rsuml (firstn k l) <= rsuml l.
Proof.
  intros H. rewrite <- (firstn_skipn k l) at 2. rewrite rsuml_app. assert (0 <= rsuml (skipn k l)); [|lra].
  pose proof (firstn_nonneg (skipn k l) (length (skipn k l))) as F. rewrite firstn_all in F. apply F. intros t Ht. apply H. rewrite <- (firstn_skipn k l). apply in_or_app. right. exact Ht.
Qed.
(** Where the points are and what they weigh: every point lies in its own ply, all weights are positive, the points of
    ply k weigh as much as its share of the thickness, and all together weigh one. *)
Theorem C84_points gi gz Di Dz thick : gauss_rule gi Di -> gauss_rule gz Dz -> (forall t, In t thick -> 0 < t) -> thick <> [] ->
  let pts := layered_quadrature gi gz thick in let T := rsuml thick in
  length pts = (length thick * (length gz * (length gi * length gi)))%nat /\
  (forall q, In q pts -> (q_ply q < length thick)%nat /\ 0 <= q_xi q <= 1 /\ 0 <= q_eta q <= 1 /\
     rsuml (firstn (q_ply q) thick) / T <= q_zeta q <= rsuml (firstn (S (q_ply q)) thick) / T /\ 0 <= q_zeta q <= 1 /\ 0 < q_w q) /\
  (forall k, (k < length thick)%nat -> qsum pts (fun q => if Nat.eqb (q_ply q) k then 1 else 0) = nth k thick 0 / T) /\
  qsum pts (fun _ => 1) = 1.
Proof.
  intros Hi Hz Ht Hne pts T.
  assert (Ht' : forall t, In t thick -> 0 <= t) by (intros t Hin; left; apply Ht, Hin).
  assert (Tp : 0 < T). { unfold T. destruct thick as [|x r]; [congruence|]. pose proof (Ht x (or_introl eq_refl)) as X. pose proof (firstn_nonneg r (length r) ltac:(intros t H; apply Ht'; right; exact H)) as Y. rewrite firstn_all in Y. cbn. unfold rsuml in Y. lra. }
  assert (Dk : forall k, (k < length thick)%nat -> qsum (ply_points gi gz thick k) (fun _ => 1) = nth k thick 0 / T).
  { intros k Hk. transitivity (qsum (ply_points gi gz thick k) (term_at ([1], [1], [1]))).
    - unfold qsum. apply rsuml_ext. intros q _. unfold term_at. cbn. ring.
    - rewrite (ply_term gi gz Di Dz thick k _ Hi Hz) by (repeat split; cbn; lia). unfold term_integral. cbn [fst snd]. rewrite !integral_one, ply_height by exact Hk. fold T. ring. }
  split; [|split; [|split]].
  - unfold pts, layered_quadrature. rewrite (flat_const _ _ _ _ (length gz * (length gi * length gi))%nat); [rewrite seq_length; reflexivity|].
    intros k _. unfold ply_points. rewrite (flat_const _ _ _ _ (length gi * length gi)%nat); [unfold unit_rule; rewrite map_length; reflexivity|].
    intros zw _. rewrite pair_length. unfold unit_rule. rewrite map_length. reflexivity.
  - intros q Hq. unfold pts, layered_quadrature in Hq. apply in_flat_map in Hq. destruct Hq as (k & Hk & Hq). apply in_seq in Hk. cbn in Hk.
    assert (U : forall g D xw, gauss_rule g D -> In xw (unit_rule g) -> 0 <= fst xw <= 1 /\ 0 < snd xw).
    { intros g D xw (Hg & _) Hin. unfold unit_rule in Hin. apply in_map_iff in Hin. destruct Hin as (yw & <- & Hin). specialize (Hg yw Hin). cbn [fst snd]. lra. }
    pose proof (ply_height thick k ltac:(lia)) as Hh. fold T in Hh. unfold ply_points in Hq.
    assert (Ea : nth k (interfaces thick) 0 = rsuml (firstn k thick) / T) by (apply interfaces_nth; lia).
    assert (Eb : nth (k + 1) (interfaces thick) 0 = rsuml (firstn (S k) thick) / T) by (replace (k + 1)%nat with (S k) by lia; apply interfaces_nth; lia).
    set (a := nth k (interfaces thick) 0) in *. set (b := nth (k + 1) (interfaces thick) 0) in *.
    apply in_flat_map in Hq. destruct Hq as (zw & Hzw & Hq). apply in_flat_map in Hq. destruct Hq as (xw & Hxw & Hq). apply in_map_iff in Hq. destruct Hq as (yw & <- & Hyw).
    cbn [q_ply q_xi q_eta q_zeta q_w]. apply (U gz Dz _ Hz) in Hzw. apply (U gi Di _ Hi) in Hxw. apply (U gi Di _ Hi) in Hyw.
    assert (Tk : 0 < nth k thick 0) by (apply Ht, nth_In; lia). assert (Hba : 0 < b - a) by (rewrite Hh; apply Rdiv_lt_0_compat; assumption).
    assert (0 <= (b - a) * fst zw) by (apply Rmult_le_pos; lra). assert ((b - a) * fst zw <= (b - a) * 1) by (apply Rmult_le_compat_l; lra).
    assert (0 <= a) by (rewrite Ea; apply Rmult_le_pos; [apply firstn_nonneg, Ht'|left; apply Rinv_0_lt_compat, Tp]).
    assert (b <= 1). { rewrite Eb. apply (Rmult_le_reg_r T); [exact Tp|]. unfold Rdiv. rewrite Rmult_assoc, Rinv_l, Rmult_1_r, Rmult_1_l by lra. apply firstn_le, Ht'. }
    split; [lia|]. split; [lra|]. split; [lra|]. split; [rewrite <- Ea, <- Eb; lra|]. split; [lra|].
    apply Rmult_lt_0_compat; [apply Rmult_lt_0_compat; lra|apply Rmult_lt_0_compat; lra].
  - intros k Hk. rewrite <- (Dk k Hk). unfold pts, qsum, layered_quadrature. rewrite rsuml_flat.
    assert (G : forall n s, (s <= k < s + n)%nat -> rsuml (map (fun a => rsuml (map (fun q => q_w q * (if q_ply q =? k then 1 else 0)) (ply_points gi gz thick a))) (seq s n)) = rsuml (map (fun q => q_w q * 1) (ply_points gi gz thick k))).
    { assert (Z : forall a, a <> k -> rsuml (map (fun q => q_w q * (if q_ply q =? k then 1 else 0)) (ply_points gi gz thick a)) = 0).
      { intros a Na. rewrite (rsuml_ext _ _ _ (fun q => 0 * 0)); [rewrite rsuml_mul; ring|]. intros q Hq. rewrite (ply_of_points _ _ _ _ _ Hq). destruct (Nat.eqb_spec a k); [congruence|]. ring. }
      assert (Z' : forall n s, (k < s)%nat -> rsuml (map (fun a => rsuml (map (fun q => q_w q * (if q_ply q =? k then 1 else 0)) (ply_points gi gz thick a))) (seq s n)) = 0).
      { induction n as [|n IH]; intros s Hs; [reflexivity|]. change (seq s (S n)) with (s :: seq (S s) n). cbn [map rsuml fold_right]. unfold rsuml in IH at 1. rewrite IH by lia. rewrite Z by lia. ring. }
      induction n as [|n IH]; intros s Hs; [lia|]. change (seq s (S n)) with (s :: seq (S s) n). cbn [map rsuml fold_right]. destruct (Nat.eq_dec s k) as [->|N].
      - unfold rsuml in Z' at 1. rewrite Z' by lia. rewrite Rplus_0_r. apply rsuml_ext. intros q Hq. rewrite (ply_of_points _ _ _ _ _ Hq), Nat.eqb_refl. reflexivity.
      - rewrite Z by exact N. unfold rsuml in IH at 1. rewrite IH by lia. ring. }
    apply G. lia.
  - transitivity (rsuml (map (fun k => nth k thick 0 / T) (seq 0 (length thick)))).
    + unfold pts, qsum, layered_quadrature. rewrite rsuml_flat. apply rsuml_ext. intros k Hk. apply in_seq in Hk. apply Dk. lia.
    + rewrite (rsuml_ext _ _ _ (fun k => / T * nth k thick 0)) by (intros; unfold Rdiv; ring). rewrite rsuml_mul.
      assert (E : map (fun k => nth k thick 0) (seq 0 (length thick)) = thick).
      { clear. induction thick as [|x r IH]; [reflexivity|]. cbn [length seq map nth]. rewrite <- seq_shift, map_map. f_equal. exact IH. }
      rewrite E. fold T. field. lra.
Qed.
Print Assumptions C84_points.

(** ** Laminate stiffness *)
(** The factory: it needs one angle and one thickness per ply, and one stiffness or one per ply; every point then gets
    the stiffness of its own ply, turned by that ply's angle about the normal. *)
Theorem C84_stiffness_at gi gz p angles thick normal :
  match c_quad gi gz p angles thick normal with
  | None => length thick <> length angles \/ exists l, p = PerPly l /\ length l <> length angles
  | Some Cq =>
      length thick = length angles /\ length Cq = length (layered_quadrature gi gz thick) /\
      forall n q d, nth_error (layered_quadrature gi gz thick) n = Some q -> (q_ply q < length thick)%nat ->
        nth n Cq d = rot4 (match p with OnePly C => C | PerPly l => nth (q_ply q) l d end) (rotation (nth (q_ply q) angles 0) (unit_axis normal))
  end.
Proof.
  unfold c_quad. destruct (Nat.eqb_spec (length thick) (length angles)) as [L|L]; [|left; exact L].
  unfold rotated_plies, broadcast_plies. destruct p as [C|l].
  - split; [exact L|]. split; [apply map_length|]. intros n q d Hn Hq.
    rewrite (nth_error_nth _ n d (map_nth_error _ n _ Hn)).
    set (f := fun ca : ten * R => rot4 (fst ca) (rotation (snd ca) (unit_axis normal))).
    rewrite (nth_indep _ _ (f (C, 0))) by (rewrite map_length, combine_length, repeat_length; lia). rewrite map_nth, combine_nth by apply repeat_length.
    unfold f. cbn [fst snd]. f_equal. apply (repeat_spec (length angles)). apply nth_In. rewrite repeat_length. lia.
  - destruct (Nat.eqb_spec (length l) (length angles)) as [L'|L']; [|right; exists l; split; [reflexivity|exact L']].
    split; [exact L|]. split; [apply map_length|]. intros n q d Hn Hq.
    rewrite (nth_error_nth _ n d (map_nth_error _ n _ Hn)).
    set (f := fun ca : ten * R => rot4 (fst ca) (rotation (snd ca) (unit_axis normal))).
    rewrite (nth_indep _ _ (f (d, 0))) by (rewrite map_length, combine_length; lia). rewrite map_nth, combine_nth by exact L'. reflexivity.
Qed.
Print Assumptions C84_stiffness_at.

(** Thickness moments of any per-ply value, for example the laminate's in-plane, coupling and bending stiffness, come
    out exact: value k times the moment of the interval of ply k. *)
Theorem C84_moments gi gz Di Dz thick (val : nat -> R) m : gauss_rule gi Di -> gauss_rule gz Dz -> (m <= Dz)%nat ->
  let z k := rsuml (firstn k thick) / rsuml thick in
  qsum (layered_quadrature gi gz thick) (fun q => val (q_ply q) * q_zeta q ^ m) =
  rsuml (map (fun k => val k * ((z (S k) ^ (m + 1) - z k ^ (m + 1)) / INR (m + 1))) (seq 0 (length thick))).
Proof.
  intros Hi Hz Hm z. pose proof (C84_exact gi gz Di Dz thick (fun k => [([1], [val k], repeat 0 m ++ [1])]) Hi Hz) as E.
  transitivity (qsum (layered_quadrature gi gz thick) (fun q => rsuml (map (fun t => term_at t q) [([1], [val (q_ply q)], repeat 0 m ++ [1])]))).
  - unfold qsum. apply rsuml_ext. intros q _. cbn [map rsuml fold_right]. unfold term_at. cbn [fst snd]. rewrite peval_monomial. cbn [peval]. ring.
  - rewrite E; clear E.
    + apply rsuml_ext. intros k Hk. apply in_seq in Hk. cbn [map rsuml fold_right]. unfold term_integral. cbn [fst snd].
      rewrite integral_one, integral_monomial, !interfaces_nth by lia. unfold z. replace (k + 1)%nat with (S k) by lia.
      assert (Iv : integral [val k] 0 1 = val k) by (unfold integral, prim; cbn; field). rewrite Iv. ring.
    + intros k t _ [<-|[]]. repeat split; cbn [fst snd length]; try lia. rewrite app_length, repeat_length. cbn. lia.
Qed.
Print Assumptions C84_moments.

(** The one- and two-point Gauss rules meet the contract; two plies of unequal thickness. *)
Definition gauss1 : list (R * R) := [(0, 2)].
Definition gauss2 : list (R * R) := [(- / sqrt 3, 1); (/ sqrt 3, 1)].
Example C84_gauss : gauss_rule gauss1 1 /\ gauss_rule gauss2 3 /\
  length (layered_quadrature gauss2 gauss2 [1; 3]) = 16%nat /\ nth 1 (interfaces [1; 3]) 0 = 1 / 4.
Proof.
  assert (S3 : sqrt 3 * sqrt 3 = 3) by (apply sqrt_sqrt; lra). assert (P3 : 0 < sqrt 3) by (apply sqrt_lt_R0; lra).
  assert (I3 : / sqrt 3 * / sqrt 3 = / 3) by (rewrite <- Rinv_mult, S3; reflexivity).
  assert (G1 : 1 <= sqrt 3) by (apply Rsqr_incr_0_var; [unfold Rsqr; lra|lra]).
  assert (L3 : 0 < / sqrt 3 <= 1) by (split; [apply Rinv_0_lt_compat, P3|]; rewrite <- Rinv_1; apply Rinv_le_contravar; lra).
  assert (Len : forall (c : list R) n, (length c <= n)%nat -> match c with [] => True | _ :: r => (length r <= n - 1)%nat end) by (intros [|x r] n H; cbn in *; [exact I|lia]).
  split; [|split; [|split]].
  - split; [intros xw [<-|[]]; cbn; lra|]. intros c L. destruct c as [|c0 [|c1 [|]]]; cbn in L; try lia; unfold wsum, gauss1, integral, prim; cbn; field.
  - split; [intros xw [<-|[<-|[]]]; cbn; lra|]. intros c L. unfold gauss2. set (h := / sqrt 3) in *. clearbody h.
    destruct c as [|c0 [|c1 [|c2 [|c3 [|]]]]]; cbn in L; try lia; unfold wsum, integral, prim; cbn [map fst snd peval rsuml fold_right prim_from INR].
    + ring.
    + cbn. field.
    + cbn. field.
    + transitivity (2 * c0 + 2 * c2 * (h * h)); [ring|]. rewrite I3. field.
    + transitivity (2 * c0 + 2 * c2 * (h * h)); [ring|]. rewrite I3. field.
  - reflexivity.
  - unfold interfaces. cbn. field.
Qed.
Print Assumptions C84_gauss.
