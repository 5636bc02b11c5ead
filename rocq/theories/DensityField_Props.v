(** C80: densities as signed distance fields; [DensityField] (feax/gene/sdf.py). *)
From Coq Require Import Reals List Arith Bool Lia Lra Psatz.
From Verif Require Import Basis_Model Basis_Spec Sdf_Model Sdf_Props.
Import ListNotations.
Open Scope R_scope.

(** ** The candidate loop *)
Lemma scan_cases d p : forall cands best0,
  (forall b xi e, best0 = Some (b, xi, e) -> b = ref_distance (df_ctype d) xi) ->
  match scan d p cands best0 with
  | inl v => exists e xi, In e cands /\ df_inv d e p = Some xi /\ inside_ref (df_ctype d) xi = true /\ v = interp_at d e xi
  | inr best =>
      (forall e xi, In e cands -> df_inv d e p = Some xi -> inside_ref (df_ctype d) xi = false /\
         exists b xi' e', best = Some (b, xi', e') /\ b <= ref_distance (df_ctype d) xi) /\
      match best with
      | None => best0 = None
      | Some (b, xi, e) => b = ref_distance (df_ctype d) xi /\ ((In e cands /\ df_inv d e p = Some xi) \/ best0 = Some (b, xi, e)) /\
                           match best0 with Some (b0, _, _) => b <= b0 | None => True end
      end
  end.
Proof.
  induction cands as [|e r IH]; intros best0 H0; cbn [scan].
  - split; [intros e xi []|]. destruct best0 as [[[b xi] e]|]; [|reflexivity]. split; [apply (H0 b xi e); reflexivity|]. split; [right; reflexivity|lra].
  - destruct (df_inv d e p) as [xi|] eqn:Ei.
    + destruct (inside_ref (df_ctype d) xi) eqn:In0; [exists e, xi; repeat split; auto; left; reflexivity|].
      set (dist := ref_distance (df_ctype d) xi). set (better := match best0 with None => true | Some (b, _, _) => ltb dist b end).
      specialize (IH (if better then Some (dist, xi, e) else best0)).
      assert (H1 : forall b x y, (if better then Some (dist, xi, e) else best0) = Some (b, x, y) -> b = ref_distance (df_ctype d) x).
      { intros b x y E. destruct better; [injection E as <- <- <-; reflexivity|apply (H0 _ _ _ E)]. }
      specialize (IH H1). destruct (scan d p r _) as [v|best].
      * destruct IH as (e' & xi' & A & B & C & D). exists e', xi'. repeat split; auto. right. exact A.
      * destruct IH as [A B]. 
        assert (Le : exists b x y, best = Some (b, x, y) /\ b <= dist /\ match best0 with Some (b0, _, _) => b <= b0 | None => True end).
        { destruct best as [[[b x] y]|].
          - destruct B as (B1 & B2 & B3). exists b, x, y. split; [reflexivity|]. destruct better eqn:Eb.
            + split; [exact B3|]. unfold better in Eb. destruct best0 as [[[b0 x0] y0]|]; [|exact I]. unfold ltb in Eb. destruct (Rlt_dec dist b0); [lra|discriminate].
            + unfold better in Eb. destruct best0 as [[[b0 x0] y0]|]; [|discriminate]. unfold ltb in Eb. destruct (Rlt_dec dist b0); [discriminate|]. split; lra.
          - exfalso. destruct better eqn:Eb; [discriminate B|]. unfold better in Eb. rewrite B in Eb. discriminate. }
        destruct Le as (b & x & y & -> & L1 & L2). destruct B as (B1 & B2 & B3). split.
        { intros e' xi' [<-|He'] Ex; [|apply (A e' xi' He' Ex)]. rewrite Ei in Ex. injection Ex as <-. split; [exact In0|]. exists b, x, y. split; [reflexivity|exact L1]. }
        split; [exact B1|]. split; [|exact L2]. destruct B2 as [(B2 & B4)|B2]; [left; split; [right; exact B2|exact B4]|].
        destruct better; [|right; exact B2]. injection B2 as <- <- <-. left. split; [left; reflexivity|exact Ei].
    + specialize (IH best0 H0). destruct (scan d p r best0) as [v|best].
      * destruct IH as (e' & xi' & A & B). exists e', xi'. split; [right; exact A|exact B].
      * destruct IH as [A B]. split; [intros e' xi' [<-|He'] Ex; [congruence|apply (A e' xi' He' Ex)]|].
        destruct best as [[[b xi] e']|]; [|exact B]. destruct B as (B1 & [(B2 & B4)|B2] & B3); (split; [exact B1|]); (split; [|exact B3]); [left; split; [right; exact B2|exact B4]|right; exact B2].
Qed.

(** ** Specification: how the density at a point is obtained *)
Inductive density_at (d : dfield) (p : point) : R -> Prop :=
| da_inside e xi : In e (df_cands d p) -> df_inv d e p = Some xi -> inside_ref (df_ctype d) xi = true -> density_at d p (interp_at d e xi)
| da_near e xi : (forall e' xi', In e' (df_cands d p) -> df_inv d e' p = Some xi' -> inside_ref (df_ctype d) xi' = false /\ ref_distance (df_ctype d) xi <= ref_distance (df_ctype d) xi') ->
    In e (df_cands d p) -> df_inv d e p = Some xi -> ref_distance (df_ctype d) xi < 1 / 2 -> density_at d p (interp_at d e (clamp_ref (df_ctype d) xi))
| da_far : (forall e xi, In e (df_cands d p) -> df_inv d e p = Some xi -> inside_ref (df_ctype d) xi = false /\ 1 / 2 <= ref_distance (df_ctype d) xi) ->
    density_at d p (if df_close d && beyond d p then 0 else nth (df_near d p) (df_rho d) 0).
(** The density is interpolated in a candidate element containing the point; failing that, at the clamped
    coordinates of the candidate closest in reference coordinates, if closer than 1/2; failing that it is 0
    beyond the bounding box (when closing the boundary) and the nearest node's value otherwise. *)
Theorem C80_density d p : density_at d p (density d p) /\ df_call d p = df_threshold d - density d p.
Proof.
  split; [|reflexivity]. unfold density. pose proof (scan_cases d p (df_cands d p) None ltac:(discriminate)) as S.
  destruct (scan d p (df_cands d p) None) as [v|best].
  - destruct S as (e & xi & A & B & C & ->). eapply da_inside; eauto.
  - destruct S as [A B]. unfold fallback_density. destruct best as [[[b xi] e]|].
    + destruct B as (-> & [(B1 & B2)|B1] & _); [|discriminate]. unfold ltb. destruct (Rlt_dec (ref_distance (df_ctype d) xi) (1 / 2)) as [L|L].
      * eapply da_near; eauto. intros e' xi' He' Ex. destruct (A e' xi' He' Ex) as (I0 & b & x & y & E & Le). injection E as <- <- <-. split; assumption.
      * apply da_far. intros e' xi' He' Ex. destruct (A e' xi' He' Ex) as (I0 & b & x & y & E & Le). injection E as <- <- <-. split; [exact I0|lra].
    + apply da_far. intros e' xi' He' Ex. destruct (A e' xi' He' Ex) as (I0 & b & x & y & E & Le). discriminate.
Qed.
Print Assumptions C80_density.
(** With the boundary closed, points beyond the bounding box and not close to any element are void. *)
Theorem C80_void d p : df_close d = true -> beyond d p = true ->
  (forall e xi, In e (df_cands d p) -> df_inv d e p = Some xi -> inside_ref (df_ctype d) xi = false /\ 1 / 2 <= ref_distance (df_ctype d) xi) ->
  df_call d p = df_threshold d.
Proof.
  intros C B F. destruct (C80_density d p) as [D ->]. inversion D as [e xi H1 H2 H3 H4|e xi H1 H2 H3 H4 H5|H1 H2].
  - destruct (F e xi H1 H2). congruence.
  - destruct (F e xi H2 H3). lra.
  - rewrite C, B. cbn. lra.
Qed.
Print Assumptions C80_void.

(** ** Batch evaluation *)
Definition bstep (d : dfield) (inv : nat -> point -> list R) (p : point) (s : bstate) (e : nat) : bstate :=
  let (found, best) := s in
  match found with
  | Some _ => s
  | None => let xi := inv e p in
      if inside_ref (df_ctype d) xi then (Some (interp_at d e xi), best)
      else let dist := ref_distance (df_ctype d) xi in
           let better := match best with None => true | Some (b, _, _) => ltb dist b end in
           (None, if better then Some (dist, xi, e) else best)
  end.
Lemma bloop d inv ks : forall st, fold_left (fun st k => bpass d inv k st) ks st =
  map (fun s => (fst s, fold_left (fun b k => bstep d inv (fst s) b (nth k (df_cands d (fst s)) 0%nat)) ks (snd s))) st.
Proof.
  induction ks as [|k ks IH]; intros st; cbn [fold_left].
  - rewrite <- (map_id st) at 1. apply map_ext. intros [p b]. reflexivity.
  - rewrite IH. unfold bpass. rewrite map_map. apply map_ext. intros [p [[v|] best]]; [reflexivity|]. cbn [fst snd bstep].
    destruct (inside_ref (df_ctype d) (inv (nth k (df_cands d p) 0%nat) p)); reflexivity.
Qed.
Lemma bfound d inv p v best : forall l, fold_left (bstep d inv p) l (Some v, best) = (Some v, best).
Proof. induction l as [|e l IH]; [reflexivity|]. exact IH. Qed.
Lemma bscan d inv p : (forall e, df_inv d e p = Some (inv e p)) -> forall l best,
  match fold_left (bstep d inv p) l (None, best) with
  | (Some v, _) => scan d p l best = inl v
  | (None, b) => scan d p l best = inr b
  end.
Proof.
  intros H. induction l as [|e l IH]; intros best; cbn [fold_left scan]; [reflexivity|]. rewrite H. cbn [bstep].
  destruct (inside_ref (df_ctype d) (inv e p)); [rewrite bfound; reflexivity|]. apply IH.
Qed.
Lemma fold_nth_seq {A S} (f : S -> A -> S) d0 l : forall s, fold_left (fun b k => f b (nth k l d0)) (seq 0 (length l)) s = fold_left f l s.
Proof.
  intros s. assert (E : l = map (fun k => nth k l d0) (seq 0 (length l))).
  { apply (nth_ext _ _ d0 d0); [now rewrite map_length, seq_length|]. intros n Hn. rewrite (nth_indep (map _ _) d0 ((fun k => nth k l d0) 0%nat)) by (rewrite map_length, seq_length; exact Hn).
    rewrite (map_nth (fun k => nth k l d0)), seq_nth by exact Hn. reflexivity. }
  transitivity (fold_left f (map (fun k => nth k l d0) (seq 0 (length l))) s); [|rewrite <- E; reflexivity]. clear E.
  generalize (seq 0 (length l)). intros ks. revert s. induction ks as [|k ks IH]; intros s; [reflexivity|]. cbn. apply IH.
Qed.
(** For linear simplices batch evaluation gives exactly the pointwise values. *)
Theorem C80_evaluate d inv n ps : (forall e p, df_inv d e p = Some (inv e p)) -> (forall p, In p ps -> length (df_cands d p) = n) ->
  df_evaluate d inv n ps = map (df_call d) ps.
Proof.
  intros H L. unfold df_evaluate. rewrite bloop, !map_map. apply map_ext_in. intros p Hp. cbn [fst snd]. unfold df_call, density. f_equal.
  rewrite <- (L p Hp), fold_nth_seq. pose proof (bscan d inv p (fun e => H e p) (df_cands d p) None) as B.
  destruct (fold_left (bstep d inv p) (df_cands d p) (None, None)) as [[v|] b]; rewrite B; reflexivity.
Qed.
Print Assumptions C80_evaluate.

(** ** Linear simplices *)
Lemma suml_cons x l : suml (x :: l) = x + suml l.
Proof. reflexivity. Qed.
Lemma dotl_cons a x b y : dotl (a :: x) (b :: y) = a * b + dotl x y.
Proof. reflexivity. Qed.
Lemma dotl_bounds eps lo hi : 0 <= eps -> lo <= hi -> forall w v, length w = length v -> (forall x, In x w -> - eps <= x) -> (forall y, In y v -> lo <= y <= hi) ->
  suml w * lo - INR (length w) * eps * (hi - lo) <= dotl w v <= suml w * hi + INR (length w) * eps * (hi - lo).
Proof.
  intros He Hlh. induction w as [|a w IH]; intros [|b v] L Hw Hv; try discriminate; [cbn; lra|]. rewrite dotl_cons, suml_cons.
  assert (A : - eps <= a) by (apply Hw; left; reflexivity). assert (B : lo <= b <= hi) by (apply Hv; left; reflexivity).
  specialize (IH v ltac:(cbn in L; lia) (fun x Hx => Hw x (or_intror Hx)) (fun y Hy => Hv y (or_intror Hy))). change (length (a :: w)) with (S (length w)). rewrite S_INR.
  assert (X1 : a * lo - eps * (hi - lo) <= a * b) by nra. assert (X2 : a * b <= a * hi + eps * (hi - lo)) by nra. nra.
Qed.
Lemma simplex_sum xi : suml (simplex_shape xi) = 1.
Proof. unfold simplex_shape. rewrite suml_cons. ring. Qed.
Lemma inside_weights xi : inside_ref Simplex xi = true -> forall x, In x (simplex_shape xi) -> - tol6 <= x.
Proof.
  cbn [inside_ref]. intros H. apply andb_true_iff in H. destruct H as [H1 H2]. rewrite forallb_forall in H1. unfold leb in *. intros x [<-|Hx].
  - destruct (Rle_dec (suml xi) (1 + tol6)); [lra|discriminate].
  - specialize (H1 x Hx). destruct (Rle_dec (- tol6) x); [assumption|discriminate].
Qed.
Lemma suml_nonneg l : (forall x, In x l -> 0 <= x) -> 0 <= suml l.
Proof. induction l as [|x l IH]; intros H; [cbn; lra|]. rewrite suml_cons. assert (0 <= x) by (apply H; left; reflexivity). assert (0 <= suml l) by (apply IH; intros; apply H; right; assumption). lra. Qed.
Lemma suml_div c l : suml (map (fun x => x / c) l) = suml l / c.
Proof. induction l as [|x l IH]; [cbn; unfold Rdiv; ring|]. cbn [map]. rewrite !suml_cons, IH. unfold Rdiv. ring. Qed.
Lemma clamp_weights xi : forall x, In x (simplex_shape (clamp_ref Simplex xi)) -> 0 <= x.
Proof.
  cbn [clamp_ref]. set (y := map (fun x => Rmax x 0) xi).
  assert (Y : forall x, In x y -> 0 <= x) by (intros x Hx; apply in_map_iff in Hx; destruct Hx as (z & <- & _); apply Rmax_r).
  destruct (Rlt_dec 1 (suml y)) as [L|L]; intros x [<-|Hx].
  - rewrite suml_div. unfold Rdiv. rewrite Rinv_r by lra. lra.
  - apply in_map_iff in Hx. destruct Hx as (z & <- & Hz). apply Rmult_le_pos; [apply Y, Hz|left; apply Rinv_0_lt_compat; lra].
  - lra.
  - apply Y, Hx.
Qed.
(** The data of a field on a TET4 (dimension 3) or TRI3 (dimension 2) mesh with node coordinates [points]. The
    inverse map is characterised by the linear system it solves. *)
Definition linear_field (d : dfield) (points : list point) (dim : nat) : Prop :=
  df_ctype d = Simplex /\ df_reorder d = seq 0 (S dim) /\ (forall xi, df_shape d xi = simplex_shape xi) /\
  (forall e k, (e < length (df_cells d))%nat -> (k <= dim)%nat -> (nth k (nth e (df_cells d) []) 0 < length points)%nat) /\
  length (df_rho d) = length points /\
  (forall p e, In e (df_cands d p) -> (e < length (df_cells d))%nat) /\
  (forall p, (df_near d p < length points)%nat) /\
  forall e p, (e < length (df_cells d))%nat -> exists xi, df_inv d e p = Some xi /\ length xi = dim /\
    forall c, (c < dim)%nat -> dotl xi (map (fun k => nth c (nth (nth (S k) (nth e (df_cells d) []) 0%nat) points []) 0 - nth c (nth (nth 0 (nth e (df_cells d) []) 0%nat) points []) 0) (seq 0 dim))
      = nth c p 0 - nth c (nth (nth 0 (nth e (df_cells d) []) 0%nat) points []) 0.
Lemma linear_vals d points dim e lo hi : linear_field d points dim -> (e < length (df_cells d))%nat -> (forall v, In v (df_rho d) -> lo <= v <= hi) ->
  length (node_vals d e) = S dim /\ forall y, In y (node_vals d e) -> lo <= y <= hi.
Proof.
  intros (_ & Ro & _ & V & L & _) He B. unfold node_vals. rewrite Ro. split; [now rewrite map_length, seq_length|].
  intros y Hy. apply in_map_iff in Hy. destruct Hy as (k & <- & Hk). apply in_seq in Hk. apply B, nth_In. rewrite L. apply V; [exact He|lia].
Qed.
(** Densities stay in the range of the nodal densities and 0, up to the containment tolerance. *)
Theorem C80_bounds d points dim lo hi p : linear_field d points dim -> lo <= 0 <= hi -> (forall v, In v (df_rho d) -> lo <= v <= hi) ->
  let m := INR (S dim) * tol6 * (hi - lo) in lo - m <= density d p <= hi + m.
Proof.
  intros F Z B m. assert (T : 0 < tol6) by (unfold tol6; lra).
  assert (m0 : 0 <= m) by (unfold m; apply Rmult_le_pos; [apply Rmult_le_pos; [apply pos_INR|lra]|lra]).
  pose proof F as (Ct & Ro & Sh & V & L & Cd & Nr & Iv). destruct (C80_density d p) as [D _]. inversion D as [e xi H1 H2 H3 E|e xi H0 H1 H2 H3 E|H0 E].
  - destruct (Iv e p (Cd p e H1)) as (xi' & E' & Len & _). rewrite H2 in E'. injection E' as <-. destruct (linear_vals d points dim e lo hi F (Cd p e H1) B) as [Lv Bv].
    unfold interp_at. rewrite Sh. rewrite Ct in H3. pose proof (dotl_bounds tol6 lo hi ltac:(lra) ltac:(lra) (simplex_shape xi) (node_vals d e)) as X.
    change (length (simplex_shape xi)) with (S (length xi)) in X. rewrite Len, simplex_sum in X. specialize (X ltac:(lia) (inside_weights xi H3) Bv). fold m in X. lra.
  - destruct (linear_vals d points dim e lo hi F (Cd p e H1) B) as [Lv Bv]. destruct (Iv e p (Cd p e H1)) as (xi' & E' & Len & _). rewrite H2 in E'. injection E' as <-.
    unfold interp_at. rewrite Sh, Ct. pose proof (dotl_bounds 0 lo hi ltac:(lra) ltac:(lra) (simplex_shape (clamp_ref Simplex xi)) (node_vals d e)) as X. rewrite simplex_sum in X.
    assert (Lc : length (clamp_ref Simplex xi) = length xi) by (cbn [clamp_ref]; destruct (Rlt_dec 1 _); rewrite ?map_length; reflexivity).
    specialize (X ltac:(cbn [length simplex_shape]; rewrite Lc; lia) (fun x Hx => ltac:(pose proof (clamp_weights xi x Hx); lra)) Bv). lra.
  - destruct (df_close d && beyond d p); [lra|]. assert (lo <= nth (df_near d p) (df_rho d) 0 <= hi) by (apply B, nth_In; rewrite L; apply Nr). lra.
Qed.
Print Assumptions C80_bounds.

(** Affine densities are interpolated exactly at points contained in a candidate. *)
Definition affine_fn (b : R) (a : list R) (p : point) : R := b + dotl a p.
Lemma dot_affine d points dim b a e p xi : linear_field d points dim -> length a = dim -> (forall q, In q points -> length q = dim) -> length p = dim ->
  (forall n, (n < length points)%nat -> nth n (df_rho d) 0 = affine_fn b a (nth n points [])) -> (e < length (df_cells d))%nat -> df_inv d e p = Some xi ->
  interp_at d e xi = affine_fn b a p.
Proof.
  intros F La Lq Lp S He Ei. pose proof F as (Ct & Ro & Sh & V & L & Cd & Nr & Iv). destruct (Iv e p He) as (xi' & E' & Len & Sys). rewrite Ei in E'. injection E' as <-.
  unfold interp_at, node_vals. rewrite Sh, Ro. set (nd := fun k => nth (nth k (nth e (df_cells d) []) 0%nat) points []).
  assert (Nv : map (fun j => nth (nth j (nth e (df_cells d) []) 0%nat) (df_rho d) 0) (seq 0 (Datatypes.S dim)) = map (fun k => affine_fn b a (nd k)) (seq 0 (Datatypes.S dim))).
  { apply map_ext_in. intros k Hk. apply in_seq in Hk. apply S, V; [exact He|lia]. }
  rewrite Nv. clear Nv. change (seq 0 (Datatypes.S dim)) with (0%nat :: seq 1 dim). cbn [map]. unfold simplex_shape. rewrite dotl_cons, <- seq_shift, map_map.
  (* sum over the edges *)
  assert (G : forall l (w : list R), length w = length l -> dotl w (map (fun k => affine_fn b a (nd (Datatypes.S k))) l) =
            suml w * affine_fn b a (nd 0%nat) + dotl w (map (fun k => affine_fn b a (nd (Datatypes.S k)) - affine_fn b a (nd 0%nat)) l)).
  { induction l as [|k l IH]; intros [|x w] H; try discriminate; [cbn; ring|]. cbn [map]. rewrite !dotl_cons, suml_cons, IH by (cbn in H; lia). ring. }
  rewrite G by (rewrite seq_length; exact Len).
  assert (Ln : forall k, (k <= dim)%nat -> length (nd k) = dim) by (intros k Hk; apply Lq, nth_In, V; [exact He|exact Hk]).
  (* coordinates *)
  assert (Dt : forall n (x y : list R) (c0 : nat), length x = n -> length y = n -> dotl x y = suml (map (fun c => nth c x 0 * nth c y 0) (seq 0 n))).
  { induction n as [|n IH]; intros [|u x] [|v y] c0 H1 H2; try discriminate; [reflexivity|]. cbn [seq map]. rewrite dotl_cons, suml_cons, <- seq_shift, map_map. cbn [nth]. f_equal. apply (IH x y c0); cbn in *; lia. }
  assert (Df : forall k, (k < dim)%nat -> affine_fn b a (nd (Datatypes.S k)) - affine_fn b a (nd 0%nat) = suml (map (fun c => nth c a 0 * (nth c (nd (Datatypes.S k)) 0 - nth c (nd 0%nat) 0)) (seq 0 dim))).
  { intros k Hk. unfold affine_fn. rewrite (Dt dim a (nd (Datatypes.S k)) 0%nat La (Ln (Datatypes.S k) Hk)), (Dt dim a (nd 0%nat) 0%nat La (Ln 0%nat (Nat.le_0_l _))).
    generalize (seq 0 dim). intros l. induction l as [|c l IH]; [cbn; ring|]. cbn [map]. rewrite !suml_cons, <- IH. ring. }
  rewrite (map_ext_in (fun k => affine_fn b a (nd (Datatypes.S k)) - affine_fn b a (nd 0%nat)) (fun k => suml (map (fun c => nth c a 0 * (nth c (nd (Datatypes.S k)) 0 - nth c (nd 0%nat) 0)) (seq 0 dim)))).
  2:{ intros k Hk. apply in_seq in Hk. apply Df. lia. }
  assert (Sw : forall (cs : list nat) ks (w : list R) (g : nat -> nat -> R), length w = length ks -> dotl w (map (fun k => suml (map (fun c => nth c a 0 * g c k) cs)) ks) = suml (map (fun c => nth c a 0 * dotl w (map (g c) ks)) cs)).
  { induction cs as [|c cs IH]; intros ks w g H.
    - cbn [map]. revert w H. induction ks as [|k ks IHk]; intros [|x w] H; try discriminate; [reflexivity|]. cbn [map]. rewrite dotl_cons, IHk by (cbn in H; lia). cbn. ring.
    - cbn [map]. rewrite suml_cons, <- IH by exact H. clear IH. revert w H. induction ks as [|k ks IHk]; intros [|x w] H; try discriminate; [cbn; ring|].
      cbn [map]. rewrite !dotl_cons, IHk, suml_cons by (cbn in H; lia). ring. }
  rewrite (Sw (seq 0 dim) (seq 0 dim) xi (fun c k => nth c (nd (Datatypes.S k)) 0 - nth c (nd 0%nat) 0)) by (rewrite seq_length; exact Len).
  rewrite (map_ext_in (fun c => nth c a 0 * dotl xi _) (fun c => nth c a 0 * (nth c p 0 - nth c (nd 0%nat) 0))).
  2:{ intros c Hc. apply in_seq in Hc. f_equal. apply Sys. lia. }
  assert (Fin : suml (map (fun c => nth c a 0 * (nth c p 0 - nth c (nd 0%nat) 0)) (seq 0 dim)) = dotl a p - dotl a (nd 0%nat)).
  { rewrite (Dt dim a p 0%nat La Lp), (Dt dim a (nd 0%nat) 0%nat La (Ln 0%nat (Nat.le_0_l _))). generalize (seq 0 dim). intros l. induction l as [|c l IH]; [cbn; ring|]. cbn [map]. rewrite !suml_cons, IH. ring. }
  rewrite Fin. unfold affine_fn. ring.
Qed.
Theorem C80_affine d points dim b a p : linear_field d points dim -> length a = dim -> (forall q, In q points -> length q = dim) -> length p = dim ->
  (forall n, (n < length points)%nat -> nth n (df_rho d) 0 = affine_fn b a (nth n points [])) ->
  (exists e xi, In e (df_cands d p) /\ df_inv d e p = Some xi /\ inside_ref Simplex xi = true) ->
  df_call d p = df_threshold d - affine_fn b a p.
Proof.
  intros F La Lq Lp S (e & xi & H1 & H2 & H3). pose proof F as (Ct & _ & _ & _ & _ & Cd & _). destruct (C80_density d p) as [D ->]. f_equal. inversion D as [e' xi' G1 G2 G3 E|e' xi' G0 G1 G2 G3 E|G0 E].
  - apply (dot_affine d points dim); auto. apply (Cd p e' G1).
  - destruct (G0 e xi H1 H2). rewrite Ct in *. congruence.
  - destruct (G0 e xi H1 H2). rewrite Ct in *. congruence.
Qed.
Print Assumptions C80_affine.

(** ** What fails *)
(** FINDING: with the boundary closed a point outside the mesh, and outside its bounding box, can still be solid:
    the near-miss rule extends every element by half its size. *)
Definition tri_field : dfield :=
  {| df_rho := [1; 1; 1]; df_cells := [[0; 1; 2]%nat]; df_reorder := [0; 1; 2]%nat; df_ctype := Simplex;
     df_cands := fun _ => [0%nat]; df_near := fun _ => 0%nat; df_inv := fun _ p => Some [nth 0 p 0; nth 1 p 0];
     df_shape := simplex_shape; df_threshold := 1 / 2; df_close := true; df_lo := [0; 0]; df_hi := [1; 1] |}.
Definition tri_points : list point := [[0; 0]; [1; 0]; [0; 1]].
Lemma tri_linear : linear_field tri_field tri_points 2.
Proof.
  split; [reflexivity|]. split; [reflexivity|]. split; [reflexivity|]. split.
  { intros e k He Hk. cbn in He. destruct e; [|lia]. destruct k as [|[|[|k]]]; cbn; lia. }
  split; [reflexivity|]. split; [intros p e [<-|[]]; cbn; lia|]. split; [intros p; cbn; lia|].
  intros e p He. cbn in He. destruct e; [|lia]. eexists. split; [reflexivity|]. split; [reflexivity|]. intros c Hc.
  destruct c as [|[|c]]; try lia; cbn; ring.
Qed.
Theorem C80_outside_refuted : exists d points p, linear_field d points 2 /\ df_close d = true /\ beyond d p = true /\
  (forall e xi, In e (df_cands d p) -> df_inv d e p = Some xi -> inside_ref (df_ctype d) xi = false) /\ df_call d p < 0.
Proof.
  exists tri_field, tri_points, [6 / 5; 0]. split; [apply tri_linear|]. split; [reflexivity|].
  assert (I0 : inside_ref Simplex [6 / 5; 0] = false).
  { cbn. unfold leb, tol6. repeat destruct (Rle_dec _ _); try reflexivity; lra. }
  split.
  { unfold beyond. cbn -[Rdiv]. unfold ltb. repeat destruct (Rlt_dec _ _); try reflexivity; lra. }
  split.
  { intros e xi [<-|[]] E. injection E as <-. exact I0. }
  destruct (C80_density tri_field [6 / 5; 0]) as [D ->]. inversion D as [e xi H1 H2 H3 E|e xi H0 H1 H2 H3 E|H0 E].
  - cbn in H2. injection H2 as <-. cbn [df_ctype tri_field] in H3. congruence.
  - destruct H1 as [<-|[]]. pose proof (simplex_sum (clamp_ref Simplex xi)) as Y.
    assert (Z : interp_at tri_field 0 (clamp_ref (df_ctype tri_field) xi) = 1).
    { cbn in H2. injection H2 as <-. rewrite <- Y. unfold interp_at, node_vals. cbn [df_ctype tri_field df_shape df_reorder df_cells df_rho map nth].
      cbn [clamp_ref map]. destruct (Rlt_dec 1 _); cbn; ring. }
    cbn [clamp_ref df_ctype tri_field] in Z. cbn [clamp_ref df_ctype tri_field] in *. rewrite Z. cbn. lra.
  - destruct (H0 0%nat [6 / 5; 0]) as [_ H1]; [left; reflexivity|reflexivity|]. exfalso. revert H1. cbn. unfold minlist. cbn. mm; lra.
Qed.
Print Assumptions C80_outside_refuted.

(** ** Node order *)
From Coq Require Import String.
(** [DensityField] lists the cell's nodes as [cells[:, re_order]] and pairs entry k with Basix shape function k.
    That is right for an element type iff taking the mesh layout through the table gives the Basix layout; so it is
    for the linear elements. *)
Theorem C80_node_order : forall e ro, In e ["HEX8"; "TET4"; "QUAD4"; "TRI3"]%string -> re_order_of e = Some ro ->
  take_inds (meshio_layout e) ro = Some (basix_layout e).
Proof. intros e ro H E. cbn in H. repeat (destruct H as [<-|H]; [vm_compute in E; injection E as <-; vm_compute; reflexivity|]). destruct H. Qed.
Print Assumptions C80_node_order.
(** FINDING: for quadratic elements the table is not its own inverse, and geometry and densities are scrambled. *)
Theorem C80_node_order_refuted : forall e ro, In e ["HEX20"; "TET10"; "QUAD8"; "QUAD9"; "TRI6"]%string -> re_order_of e = Some ro ->
  take_inds (meshio_layout e) ro <> Some (basix_layout e).
Proof. intros e ro H E. cbn in H. repeat (destruct H as [<-|H]; [vm_compute in E; injection E as <-; vm_compute; discriminate|]). destruct H. Qed.
Print Assumptions C80_node_order_refuted.

(** The triangle meets the hypotheses; its density is 1 at an interior point. *)
Example C80_example : linear_field tri_field tri_points 2 /\ df_call tri_field [1 / 4; 1 / 4] = 1 / 2 - affine_fn 1 [0; 0] [1 / 4; 1 / 4].
Proof.
  split; [apply tri_linear|]. change (1 / 2) with (df_threshold tri_field). apply (C80_affine tri_field tri_points 2 1 [0; 0] [1 / 4; 1 / 4]).
  - apply tri_linear.
  - reflexivity.
  - intros q [<-|[<-|[<-|[]]]]; reflexivity.
  - reflexivity.
  - intros n Hn. cbn in Hn. destruct n as [|[|[|n]]]; try lia; cbn; unfold affine_fn, dotl; cbn; ring.
  - exists 0%nat, [1 / 4; 1 / 4]. split; [left; reflexivity|]. split; [reflexivity|]. cbn [inside_ref forallb andb suml fold_right]. unfold Sdf_Model.leb, tol6. repeat (destruct (Rle_dec _ _) as [?X|?X]; [|exfalso; lra]). reflexivity.
Qed.
