(** C58: the moving narrow-band loop; C59: the resolution ladder. *)
From Coq Require Import List Bool Arith ZArith QArith Qminmax Qabs Qround Lia Lqa Sorted.
From Verif Require Import Base ZArr Grid_Model Grid_Proofs Oc_Model Oc_Props.
Import ListNotations.
Open Scope Z_scope.

(** ** Specification vocabulary *)
(** The cells can be reached from each other in at most n steps through cell faces. *)
Definition steps (g : grid) (e c : Z) : Z :=
  let '(x, y, z) := cell_ijk g e in let '(x', y', z') := cell_ijk g c in
  Z.abs (x - x') + Z.abs (y - y') + Z.abs (z - z').
Definition in_grid (g : grid) (e : Z) : Prop := 0 <= e < num_cells g.
Definition sane_grid (g : grid) : Prop := 1 <= nx g /\ 1 <= ny g /\ 1 <= nz g.

Section Dilation.
  Variable g : grid.
  Lemma dilate1_spec (M : mask) x y z : 0 <= x < nx g -> 0 <= y < ny g -> 0 <= z < nz g ->
    (dilate1 g M (cell_id g x y z) = true <->
     M (cell_id g x y z) = true \/
     exists a b c, 0 <= a < nx g /\ 0 <= b < ny g /\ 0 <= c < nz g /\
       Z.abs (x - a) + Z.abs (y - b) + Z.abs (z - c) = 1 /\ M (cell_id g a b c) = true).
  Proof.
    intros X Y Z. unfold dilate1. destruct (cell_ijk_id g x y z X Y Z) as [E _]. rewrite E. rewrite !orb_true_iff.
    unfold at_ijk. rewrite !andb_true_iff, !in_bounds_iff. split.
    - intros [[[[[[H|[B H]]|[B H]]|[B H]]|[B H]]|[B H]]|[B H]]; [left; exact H|..]; right;
        do 3 eexists; (split; [apply B|]; split; [apply B|]; split; [apply B|]; split; [|exact H]; lia).
    - intros [H|(a & b & c & A & B & C & D & H)]; [tauto|].
      assert (K : (a = x - 1 /\ b = y /\ c = z) \/ (a = x + 1 /\ b = y /\ c = z) \/ (a = x /\ b = y - 1 /\ c = z) \/
        (a = x /\ b = y + 1 /\ c = z) \/ (a = x /\ b = y /\ c = z - 1) \/ (a = x /\ b = y /\ c = z + 1)) by lia.
      destruct K as [(-> & -> & ->)|[(-> & -> & ->)|[(-> & -> & ->)|[(-> & -> & ->)|[(-> & -> & ->)|(-> & -> & ->)]]]]]; tauto.
  Qed.

  Lemma dilate_iter (m : mask) n : forall x y z, 0 <= x < nx g -> 0 <= y < ny g -> 0 <= z < nz g ->
    (Nat.iter n (dilate1 g) m (cell_id g x y z) = true <->
     exists a b c, 0 <= a < nx g /\ 0 <= b < ny g /\ 0 <= c < nz g /\
       Z.abs (x - a) + Z.abs (y - b) + Z.abs (z - c) <= Z.of_nat n /\ m (cell_id g a b c) = true).
  Proof.
    induction n as [|n IH]; intros x y z X Y Z.
    - cbn. split.
      + intros H. exists x, y, z. repeat split; try lia; exact H.
      + intros (a & b & c & A & B & C & D & H). replace a with x in H by lia. replace b with y in H by lia.
        replace c with z in H by lia. exact H.
    - change (Nat.iter (S n) (dilate1 g) m) with (dilate1 g (Nat.iter n (dilate1 g) m)).
      rewrite dilate1_spec by assumption. split.
      + intros [H|(a & b & c & A & B & C & D & H)]; apply IH in H; try assumption.
        * destruct H as (a & b & c & A & B & C & D & H). exists a, b, c. repeat split; try lia; exact H.
        * destruct H as (a' & b' & c' & A' & B' & C' & D' & H). exists a', b', c'. repeat split; try lia; exact H.
      + intros (a & b & c & A & B & C & D & H).
        destruct (Z.eq_dec x a) as [->|NX].
        * destruct (Z.eq_dec y b) as [->|NY].
          -- destruct (Z.eq_dec z c) as [->|NZ].
             ++ left. apply IH; try assumption. exists a, b, c. repeat split; try lia; exact H.
             ++ right. exists a, b, (if z <? c then z + 1 else z - 1). destruct (Z.ltb_spec z c).
                ** do 4 (split; [lia|]). apply IH; try lia. exists a, b, c. repeat split; try lia; exact H.
                ** do 4 (split; [lia|]). apply IH; try lia. exists a, b, c. repeat split; try lia; exact H.
          -- right. exists a, (if y <? b then y + 1 else y - 1), z. destruct (Z.ltb_spec y b).
             ++ do 4 (split; [lia|]). apply IH; try lia. exists a, b, c. repeat split; try lia; exact H.
             ++ do 4 (split; [lia|]). apply IH; try lia. exists a, b, c. repeat split; try lia; exact H.
        * right. exists (if x <? a then x + 1 else x - 1), y, z. destruct (Z.ltb_spec x a).
          -- do 4 (split; [lia|]). apply IH; try lia. exists a, b, c. repeat split; try lia; exact H.
          -- do 4 (split; [lia|]). apply IH; try lia. exists a, b, c. repeat split; try lia; exact H.
  Qed.
End Dilation.

Lemma binary_dilation_spec g (m : mask) margin e : sane_grid g -> in_grid g e ->
  (binary_dilation g m margin e = true <->
   exists c, in_grid g c /\ m c = true /\ (1 <= margin -> steps g e c <= margin)).
Proof.
  intros S He. unfold sane_grid in S. assert (Pos : 0 < nx g /\ 0 < ny g /\ 0 < nz g) by lia.
  destruct (cell_id_ijk g Pos e He) as (x & y & z & E & I & X & Y & Z). unfold binary_dilation.
  rewrite <- I at 1. rewrite dilate_iter by assumption. rewrite Z2Nat.id.
  2: { unfold num_cells. destruct (Z.ltb_spec margin 1); [|lia]. apply Z.mul_nonneg_nonneg; [apply Z.mul_nonneg_nonneg|]; lia. }
  split.
  - intros (a & b & c & A & B & C & D & H). destruct (cell_ijk_id g a b c A B C) as [F R].
    exists (cell_id g a b c). split; [exact R|]. split; [exact H|]. intros M. unfold steps. rewrite E, F.
    destruct (Z.ltb_spec margin 1); lia.
  - intros (c & R & H & D). destruct (cell_id_ijk g Pos c R) as (a & b & d & F & J & A & B & C).
    exists a, b, d. do 3 (split; [assumption|]). rewrite J. split; [|exact H].
    unfold steps in D. rewrite E, F in D. destruct (Z.ltb_spec margin 1) as [L|L]; [|apply D; exact L].
    assert (K1 : nx g + ny g <= nx g * ny g + 1) by nia.
    assert (K2 : nx g * ny g + nz g <= nx g * ny g * nz g + 1).
    { assert (1 <= nx g * ny g) by nia. generalize dependent (nx g * ny g). intros. nia. }
    unfold num_cells. lia.
Qed.

Lemma active_in g w e : In e (active_cells g w) <-> in_grid g e /\ w e = true.
Proof. unfold active_cells. rewrite filter_In, arangeZ_in. reflexivity. Qed.
Lemma filter_sorted (w : Z -> bool) l : StronglySorted Z.lt l -> StronglySorted Z.lt (filter w l).
Proof.
  induction 1 as [|a l S IH F]; cbn; [constructor|]. destruct (w a); [|exact IH]. constructor; [exact IH|].
  rewrite Forall_forall in *. intros x H. apply filter_In in H. apply F, H.
Qed.
Lemma active_sorted g w : StronglySorted Z.lt (active_cells g w).
Proof. apply filter_sorted, arangeZ_sorted. Qed.

Lemma eqb_listZ_spec a b : eqb_listZ a b = true <-> a = b.
Proof.
  revert b. induction a as [|x a IH]; intros [|y b]; cbn; try (split; congruence).
  rewrite andb_true_iff, Z.eqb_eq, IH. split; [intros [-> ->]; reflexivity|]. intros H. injection H as -> ->. auto.
Qed.

Lemma scatterZ_length g active vals : length (scatterZ g active vals) = Z.to_nat (num_cells g).
Proof.
  unfold scatterZ. assert (G : forall (l : list (Z * Q)) acc, length (fold_left (fun l av => upd l (Z.to_nat (fst av)) (snd av)) l acc) = length acc).
  { induction l as [|p l IH]; intros acc; cbn; [reflexivity|]. rewrite IH. apply upd_length. }
  rewrite G. apply repeat_length.
Qed.
Lemma scatterZ_outside g active vals e : 0 <= e -> (forall a, In a active -> 0 <= a) -> ~ In e active ->
  nth (Z.to_nat e) (scatterZ g active vals) 0%Q = 0%Q.
Proof.
  intros He P N. unfold scatterZ.
  assert (G : forall (l : list (Z * Q)) acc, (forall p, In p l -> In (fst p) active) ->
    nth (Z.to_nat e) (fold_left (fun l av => upd l (Z.to_nat (fst av)) (snd av)) l acc) 0%Q = nth (Z.to_nat e) acc 0%Q).
  { induction l as [|p l IH]; intros acc I; cbn; [reflexivity|]. rewrite IH by (intros q Q; apply I; right; exact Q).
    rewrite nth_upd. destruct (Nat.eqb_spec (Z.to_nat (fst p)) (Z.to_nat e)) as [E|E]; [|reflexivity].
    exfalso. apply N. specialize (I p (or_introl eq_refl)). specialize (P _ I). replace e with (fst p) by lia. exact I. }
  rewrite G. { apply nth_repeat. }
  intros [a v] H. apply in_combine_l in H. exact H.
Qed.

(** ** One run *)
(** The density an iteration starts from. *)
Definition before (start : list Q) (es : list nb_event) (k : nat) : list Q :=
  match k with O => start | S j => match nth_error es j with Some e => ev_new e | None => [] end end.
Definition start_density (g : grid) (volfrac : Q) (x_init : option (list Q)) : list Q :=
  match x_init with None => repeat volfrac (Z.to_nat (num_cells g)) | Some x => x end.

Section Run.
  Variable pw : Q -> Q.
  Variable g : grid.
  Variable keep : mask.
  Variables (gus margin : Z) (threshold volfrac move xmin : Q).
  Variable jit_after : option Z.
  Variable solve : list Z -> bool -> list Q -> Q * list Q.
  Variable sfilter : list Z -> list Q -> list Q -> list Q.
  Notation step f := (nb_step pw g keep gus margin threshold volfrac move xmin jit_after solve sfilter f).
  Notation loop f := (nb_loop pw g keep gus margin threshold volfrac move xmin jit_after solve sfilter f).

  Definition inv (it : Z) (s : nb_state) : Prop :=
    match nb_prev s with
    | None => nb_jit s = false /\ it = 0
    | Some (p, b) => p = b /\ nb_jit s = use_jit jit_after (it - 1)
    end.

  Lemma step_facts fuel s it s' e : 0 <= it -> inv it s -> step fuel s it = Some (s', e) ->
    ev_it e = it /\
    ev_active e = active_cells g (wanted g keep gus it margin threshold (nb_rho s)) /\
    ev_built e = ev_active e /\ ev_jit e = use_jit jit_after it /\
    (ev_rebuilt e = true <-> (nb_prev s = None \/ option_map fst (nb_prev s) <> Some (ev_active e) \/ (use_jit jit_after it = true /\ nb_jit s = false))) /\
    ev_rho e = gatherZ (nb_rho s) (ev_active e) /\
    ev_compliance e = fst (solve (ev_active e) (ev_jit e) (ev_rho e)) /\
    nb_prev s' = Some (ev_active e, ev_built e) /\ nb_jit s' = ev_jit e /\ nb_rho s' = ev_new e /\
    oc_update pw move xmin 1 (1 # 10000) fuel (inject_Z (10 ^ 9)) volfrac (nb_rho s)
       (scatterZ g (ev_active e) (sfilter (ev_active e) (ev_rho e) (snd (solve (ev_active e) (ev_jit e) (ev_rho e)))))
       (repeat 1%Q (Z.to_nat (num_cells g))) = Some (ev_new e).
  Proof.
    intros P I H. unfold nb_step in H.
    set (A := active_cells g (wanted g keep gus it margin threshold (nb_rho s))) in *.
    set (R := (_ || _)%bool) in H. set (B := if R then A else _) in H. set (J := if R then use_jit jit_after it else _) in H.
    assert (HB : B = A /\ J = use_jit jit_after it).
    { subst B J. destruct R eqn:ER; [split; reflexivity|]. unfold R in ER. apply orb_false_iff in ER. destruct ER as [E1 E2].
      unfold inv in I. destruct (nb_prev s) as [[p b]|]; [|discriminate]. destruct I as [-> I].
      apply negb_false_iff, eqb_listZ_spec in E1. split; [symmetry; exact E1|]. rewrite I in *.
      destruct (use_jit jit_after it) eqn:U; [destruct (use_jit jit_after (it - 1)); [reflexivity|discriminate]|].
      unfold use_jit in *. destruct jit_after as [j|]; [|reflexivity]. apply Z.leb_gt in U. apply Z.leb_gt. lia. }
    destruct HB as [HB HJ].
    destruct (oc_update _ _ _ _ _ _ _ _ _ _ _) as [r|] eqn:O; [|discriminate]. injection H as <- <-. cbn [ev_it ev_active ev_built ev_jit ev_rebuilt ev_rho ev_compliance ev_new nb_prev nb_jit nb_rho].
    split; [reflexivity|]. split; [reflexivity|]. split; [exact HB|]. split; [exact HJ|].
    split.
    { unfold R. rewrite orb_true_iff, andb_true_iff, negb_true_iff. destruct (nb_prev s) as [[p b]|]; cbn.
      - rewrite negb_true_iff. split.
        + intros [E|E]; [right; left|right; right; exact E]. intros Q. injection Q as Q. symmetry in Q.
          apply eqb_listZ_spec in Q. fold A in Q. congruence.
        + intros [E|[E|E]]; [discriminate| |right; exact E]. left. destruct (eqb_listZ A p) eqn:Q; [|reflexivity].
          apply eqb_listZ_spec in Q. exfalso. apply E. congruence.
      - tauto. }
    split; [reflexivity|]. rewrite HB, HJ in *. split; [reflexivity|]. do 3 (split; [reflexivity|]). exact O.
  Qed.

  Lemma loop_facts fuel : forall n it s s' es, 0 <= it -> inv it s -> loop fuel n it s = Some (s', es) ->
    length es = n /\ nb_rho s' = before (nb_rho s) es n /\
    forall k e, nth_error es k = Some e -> exists sk sk', inv (it + Z.of_nat k) sk /\
      step fuel sk (it + Z.of_nat k) = Some (sk', e) /\ nb_rho sk = before (nb_rho s) es k /\
      match k with O => sk = s | S j => exists e', nth_error es j = Some e' /\ nb_prev sk = Some (ev_active e', ev_built e') end.
  Proof.
    induction n as [|n IH]; intros it s s' es P I H; cbn [nb_loop] in H.
    - injection H as <- <-. split; [reflexivity|]. split; [reflexivity|]. intros [|k] e H; discriminate H.
    - destruct (step fuel s it) as [[s1 e1]|] eqn:S1; [|discriminate].
      destruct (loop fuel n (it + 1) s1) as [[s2 es2]|] eqn:L; [|discriminate]. injection H as <- <-.
      destruct (step_facts fuel s it s1 e1 P I S1) as (F1 & F2 & F3 & F4 & F5 & F6 & F7 & F8 & F9 & F10 & F11).
      assert (I1 : inv (it + 1) s1).
      { unfold inv. rewrite F8. split; [congruence|]. rewrite F9, F4. f_equal. lia. }
      destruct (IH (it + 1) s1 s2 es2 ltac:(lia) I1 L) as (G1 & G2 & G3).
      split; [cbn; lia|]. split.
      { rewrite G2. destruct n as [|n]; cbn; [exact F10|reflexivity]. }
      intros [|k] e H; cbn [nth_error] in H.
      + injection H as <-. exists s, s1. rewrite Z.add_0_r. split; [exact I|]. split; [exact S1|]. split; reflexivity.
      + destruct (G3 k e H) as (sk & sk' & K1 & K2 & K3 & K4). exists sk, sk'.
        replace (it + Z.of_nat (S k)) with (it + 1 + Z.of_nat k) by lia. split; [exact K1|]. split; [exact K2|].
        destruct k as [|k].
        * subst sk. split; [exact F10|]. exists e1. split; [reflexivity|exact F8].
        * split; [exact K3|exact K4].
  Qed.

  Notation run f := (run_nb pw g keep gus margin threshold volfrac move xmin jit_after solve sfilter f).
  Lemma run_facts fuel n x_init x es : run fuel n x_init = Some (x, es) ->
    let st := start_density g volfrac x_init in
    length es = n /\ x = before st es n /\
    forall k e, nth_error es k = Some e -> exists sk sk', inv (Z.of_nat k) sk /\
      step fuel sk (Z.of_nat k) = Some (sk', e) /\ nb_rho sk = before st es k /\
      match k with O => sk = NbState None false st | S j => exists e', nth_error es j = Some e' /\ nb_prev sk = Some (ev_active e', ev_built e') end.
  Proof.
    intros H st. unfold run_nb in H. fold (start_density g volfrac x_init) in H. fold st in H.
    destruct (loop fuel n 0 _) as [[s' es']|] eqn:L; [|discriminate]. cbn in H. injection H as <- <-.
    apply loop_facts in L; [|lia|split; reflexivity]. destruct L as (A & B & C). split; [exact A|]. split; [exact B|].
    intros k e H. destruct (C k e H) as (sk & sk' & D1 & D2 & D3 & D4). exists sk, sk'. rewrite Z.add_0_l in *. auto.
  Qed.
End Run.

(** ** C58 *)
(** The cells of the band: every cell during the exploration phase, afterwards those kept
    and those within margin steps of a cell denser than the threshold. *)
Theorem C58_band :
  forall pw g keep gus margin threshold volfrac move xmin jit_after solve sfilter fuel n x_init x es,
  run_nb pw g keep gus margin threshold volfrac move xmin jit_after solve sfilter fuel n x_init = Some (x, es) ->
  sane_grid g -> 1 <= margin ->
  length es = n /\ x = before (start_density g volfrac x_init) es n /\
  forall k e, nth_error es k = Some e ->
    let rho := before (start_density g volfrac x_init) es k in
    ev_it e = Z.of_nat k /\ StronglySorted Z.lt (ev_active e) /\
    forall c, In c (ev_active e) <->
      in_grid g c /\ (Z.of_nat k < gus \/ keep c = true \/
                      exists s, in_grid g s /\ (threshold < nth (Z.to_nat s) rho 0)%Q /\ steps g c s <= margin).
Proof.
  intros pw g keep gus margin threshold volfrac move xmin jit_after solve sfilter fuel n x_init x es H SG M.
  apply run_facts in H. destruct H as (L & X & H). split; [exact L|]. split; [exact X|].
  intros k e E. destruct (H k e E) as (sk & sk' & I & ST & R & _).
  apply step_facts in ST; [|lia|exact I]. destruct ST as (F1 & F2 & _). cbv zeta. rewrite <- R.
  split; [exact F1|]. rewrite F2. split; [apply active_sorted|]. intros c. rewrite active_in.
  split; intros [G W]; (split; [exact G|]); unfold wanted in *.
  - destruct (Z.ltb_spec (Z.of_nat k) gus); [left; assumption|]. right. apply orb_true_iff in W. destruct W as [W|W]; [right|left; exact W].
    apply (binary_dilation_spec g _ margin c SG G) in W. destruct W as (s & Gs & T & D). exists s. split; [exact Gs|].
    split; [apply Qltb_lt; exact T|apply D; exact M].
  - destruct (Z.ltb_spec (Z.of_nat k) gus); [reflexivity|]. apply orb_true_iff. destruct W as [W|[W|(s & Gs & T & D)]]; [lia|right; exact W|left].
    apply (binary_dilation_spec g _ margin c SG G). exists s. split; [exact Gs|]. split; [apply Qltb_lt; exact T|intros _; exact D].
Qed.
Print Assumptions C58_band.

(** A margin below one means "until nothing changes": one dense cell anywhere activates
    the whole grid. *)
Theorem C58_no_margin :
  forall pw g keep gus margin threshold volfrac move xmin jit_after solve sfilter fuel n x_init x es,
  run_nb pw g keep gus margin threshold volfrac move xmin jit_after solve sfilter fuel n x_init = Some (x, es) ->
  sane_grid g -> margin < 1 ->
  forall k e, nth_error es k = Some e -> gus <= Z.of_nat k ->
    let rho := before (start_density g volfrac x_init) es k in
    forall s, in_grid g s -> (threshold < nth (Z.to_nat s) rho 0)%Q ->
    forall c, In c (ev_active e) <-> in_grid g c.
Proof.
  intros pw g keep gus margin threshold volfrac move xmin jit_after solve sfilter fuel n x_init x es H SG M k e E GK rho s Gs T c.
  apply run_facts in H. destruct H as (L & X & H). destruct (H k e E) as (sk & sk' & I & ST & R & _).
  apply step_facts in ST; [|lia|exact I]. destruct ST as (F1 & F2 & _). rewrite F2, active_in.
  split; [intros [G _]; exact G|]. intros G. split; [exact G|]. unfold wanted. rewrite (proj2 (Z.ltb_ge _ _) GK).
  apply orb_true_iff. left. apply (binary_dilation_spec g _ margin c SG G). exists s. split; [exact Gs|].
  split; [apply Qltb_lt; rewrite R; exact T|lia].
Qed.
Print Assumptions C58_no_margin.

(** The solver in use was built for exactly the band and the compilation mode of the
    iteration, and it is rebuilt only when one of them changed. *)
Theorem C58_solver_current :
  forall pw g keep gus margin threshold volfrac move xmin jit_after solve sfilter fuel n x_init x es,
  run_nb pw g keep gus margin threshold volfrac move xmin jit_after solve sfilter fuel n x_init = Some (x, es) ->
  forall k e, nth_error es k = Some e ->
    let rho := before (start_density g volfrac x_init) es k in
    let jit := match jit_after with Some j => Z.leb j (Z.of_nat k) | None => false end in
    ev_built e = ev_active e /\ ev_jit e = jit /\
    ev_rho e = map (fun c => nth (Z.to_nat c) rho 0%Q) (ev_active e) /\
    ev_compliance e = fst (solve (ev_active e) jit (ev_rho e)) /\
    (ev_rebuilt e = true <->
     k = O \/ exists j e', k = S j /\ nth_error es j = Some e' /\ (ev_active e' <> ev_active e \/ ev_jit e' <> ev_jit e)).
Proof.
  intros pw g keep gus margin threshold volfrac move xmin jit_after solve sfilter fuel n x_init x es H k e E rho jit.
  apply run_facts in H. destruct H as (L & X & H). destruct (H k e E) as (sk & sk' & I & ST & R & PR).
  apply step_facts in ST; [|lia|exact I]. destruct ST as (F1 & F2 & F3 & F4 & F5 & F6 & F7 & _).
  split; [exact F3|]. split; [exact F4|]. split; [rewrite F6, R; reflexivity|].
  split; [rewrite F7, F4; reflexivity|]. rewrite F5. destruct k as [|k].
  - subst sk. split; [left; reflexivity|left; reflexivity].
  - destruct PR as (e' & E' & PR).
    assert (J' : ev_jit e' = nb_jit sk).
    { destruct (H k e' E') as (s0 & s1 & I0 & ST0 & _). apply step_facts in ST0; [|lia|exact I0].
      destruct ST0 as (_ & _ & _ & F4' & _). rewrite F4'. unfold inv in I. rewrite PR in I. destruct I as [_ I]. rewrite I.
      f_equal. lia. }
    assert (I' : nb_jit sk = use_jit jit_after (Z.of_nat (S k) - 1)) by (unfold inv in I; rewrite PR in I; apply I).
    rewrite PR. cbn [option_map fst]. split.
    + intros [Q|[Q|[Q1 Q2]]]; [discriminate|right|right]; exists k, e'.
      * split; [reflexivity|]. split; [exact E'|]. left. intros Q'. apply Q. congruence.
      * split; [reflexivity|]. split; [exact E'|]. right. rewrite J', F4, Q1, Q2. discriminate.
    + intros [Q|(j & e'' & Q & E'' & C)]; [discriminate|]. injection Q as <-. rewrite E' in E''. injection E'' as <-.
      destruct C as [C|C]; [right; left; congruence|right; right]. rewrite J', F4, I' in C. rewrite I'.
      unfold use_jit in *. destruct jit_after as [j|]; [|congruence].
      destruct (Z.leb_spec j (Z.of_nat (S k))); destruct (Z.leb_spec j (Z.of_nat (S k) - 1)); try congruence; [auto|lia].
Qed.
Print Assumptions C58_solver_current.

(** Every density after the first iteration has one entry per cell, all within
    [xmin, 1]. *)
Theorem C58_densities :
  forall pw g keep gus margin threshold volfrac move xmin jit_after solve sfilter fuel n x_init x es,
  run_nb pw g keep gus margin threshold volfrac move xmin jit_after solve sfilter fuel n x_init = Some (x, es) ->
  (xmin <= 1)%Q -> length (start_density g volfrac x_init) = Z.to_nat (num_cells g) ->
  (forall k, (1 <= k <= n)%nat ->
     length (before (start_density g volfrac x_init) es k) = Z.to_nat (num_cells g) /\
     all_in xmin 1 (before (start_density g volfrac x_init) es k)) /\
  ((1 <= n)%nat -> length x = Z.to_nat (num_cells g) /\ all_in xmin 1 x).
Proof.
  intros pw g keep gus margin threshold volfrac move xmin jit_after solve sfilter fuel n x_init x es H XM LS.
  apply run_facts in H. destruct H as (L & X & H).
  assert (G : forall k, (1 <= k <= n)%nat ->
     length (before (start_density g volfrac x_init) es k) = Z.to_nat (num_cells g) /\
     all_in xmin 1 (before (start_density g volfrac x_init) es k)).
  { induction k as [|k IH]; intros K; [lia|].
    assert (LB : length (before (start_density g volfrac x_init) es k) = Z.to_nat (num_cells g)).
    { destruct k as [|k]; [exact LS|]. apply IH. lia. }
    destruct (nth_error es k) as [e|] eqn:E; [|apply nth_error_None in E; lia].
    destruct (H k e E) as (sk & sk' & I & ST & R & _). apply step_facts in ST; [|lia|exact I].
    destruct ST as (_ & _ & _ & _ & _ & _ & _ & _ & _ & _ & O). cbn [before]. rewrite E. rewrite R in O.
    rewrite <- LB. eapply C43_box; [exact XM| | | |exact O].
    - rewrite scatterZ_length. symmetry. exact LB.
    - rewrite repeat_length. symmetry. exact LB.
    - vm_compute. reflexivity. }
  split; [exact G|]. intros N. rewrite X. apply G. lia.
Qed.
Print Assumptions C58_densities.

(** The run ends, and gives the same result for every larger bound on the bisection. *)
Theorem C58_completes :
  forall pw g keep gus margin threshold volfrac move xmin jit_after solve sfilter n x_init,
  exists fuel x es, forall more,
  run_nb pw g keep gus margin threshold volfrac move xmin jit_after solve sfilter (fuel + more) n x_init = Some (x, es).
Proof.
  intros. unfold run_nb. fold (start_density g volfrac x_init). generalize (NbState None false (start_density g volfrac x_init)).
  intros s. cut (forall n it s, exists fuel r, forall more, nb_loop pw g keep gus margin threshold volfrac move xmin jit_after solve sfilter (fuel + more) n it s = Some r).
  { intros C. destruct (C n 0 s) as (fuel & [s' es] & K). exists fuel, (nb_rho s'), es. intros more. rewrite K. reflexivity. }
  clear. induction n as [|n IH]; intros it s.
  - exists O, (s, []). reflexivity.
  - cbn [nb_loop]. unfold nb_step.
    set (A := active_cells g _). set (R := (_ || _)%bool). set (B := if R then A else _). set (J := if R then _ else _).
    set (CD := solve _ _ _). set (DC := scatterZ _ _ _).
    destruct (C43_terminates pw move xmin 1 (1 # 10000) (inject_Z (10 ^ 9)) volfrac (nb_rho s) DC (repeat 1%Q (Z.to_nat (num_cells g))))
      as (f1 & r & T1); [vm_compute; reflexivity|vm_compute; discriminate|].
    destruct (IH (it + 1) (NbState (Some (A, B)) J r)) as (f2 & [s2 es2] & T2).
    exists (f1 + f2)%nat. eexists. intros more. replace (f1 + f2 + more)%nat with (f1 + (f2 + more))%nat by lia. rewrite T1.
    replace (f1 + (f2 + more))%nat with (f2 + (f1 + more))%nat by lia. rewrite T2. reflexivity.
Qed.
Print Assumptions C58_completes.

(** Cells outside the band only lose material: by the move limit, down to xmin. *)
Theorem C58_outside :
  forall pw g keep gus margin threshold volfrac move xmin jit_after solve sfilter fuel n x_init x es,
  run_nb pw g keep gus margin threshold volfrac move xmin jit_after solve sfilter fuel n x_init = Some (x, es) ->
  (xmin <= 1)%Q -> (0 <= move)%Q -> (forall q, q == 0 -> pw q == 0)%Q ->
  length (start_density g volfrac x_init) = Z.to_nat (num_cells g) ->
  forall k e, nth_error es k = Some e ->
  forall c, in_grid g c -> ~ In c (ev_active e) ->
    let r := nth (Z.to_nat c) (before (start_density g volfrac x_init) es k) 0%Q in
    (0 <= r <= 1)%Q ->
    (nth (Z.to_nat c) (ev_new e) 0 == Qmax xmin (Qmax 0 (r - move)))%Q /\
    (sane_grid g -> 1 <= margin -> (r <= threshold)%Q).
Proof.
  intros pw g keep gus margin threshold volfrac move xmin jit_after solve sfilter fuel n x_init x es H XM MV PW LS k e E c G N r RR.
  pose proof H as H0. pose proof H as H1. apply run_facts in H. destruct H as (L & X & H). destruct (H k e E) as (sk & sk' & I & ST & R & _).
  assert (LB : length (before (start_density g volfrac x_init) es k) = Z.to_nat (num_cells g)).
  { destruct k as [|k]; [exact LS|]. apply (C58_densities _ _ _ _ _ _ _ _ _ _ _ _ _ _ _ _ _ H0 XM LS).
    split; [lia|]. rewrite <- L. apply Nat.lt_le_incl. apply nth_error_Some. congruence. }
  split.
  - apply step_facts in ST; [|lia|exact I]. destruct ST as (_ & F2 & _ & _ & _ & _ & _ & _ & _ & _ & O). rewrite R in O.
    assert (ci : (Z.to_nat c < length (before (start_density g volfrac x_init) es k))%nat) by (unfold in_grid in G; lia).
    eapply C43_bracket in O; [|rewrite scatterZ_length; symmetry; exact LB|rewrite repeat_length; symmetry; exact LB|vm_compute; discriminate|vm_compute; reflexivity].
    destruct O as (l1 & l2 & x1 & x2 & P & _ & _ & U1 & U2 & XX & _).
    assert (S0 : nth (Z.to_nat c) (scatterZ g (ev_active e) (sfilter (ev_active e) (ev_rho e) (snd (solve (ev_active e) (ev_jit e) (ev_rho e))))) 0%Q = 0%Q).
    { apply scatterZ_outside; [unfold in_grid in G; lia| |exact N]. rewrite F2. intros a Ha. apply active_in in Ha. unfold in_grid in Ha. lia. }
    assert (V : forall lam y, (0 <= lam)%Q -> update_at pw move xmin 1 lam (before (start_density g volfrac x_init) es k)
      (scatterZ g (ev_active e) (sfilter (ev_active e) (ev_rho e) (snd (solve (ev_active e) (ev_jit e) (ev_rho e)))))
      (repeat 1%Q (Z.to_nat (num_cells g))) y -> (nth (Z.to_nat c) y 0 == Qmax xmin (Qmax 0 (r - move)))%Q).
    { intros lam y Hl [_ U]. specialize (U _ ci). rewrite S0 in U. fold r in U. rewrite U. unfold clip.
      set (b := Qmax 0 _). assert (B0 : (pw b == 0)%Q).
      { assert (D0 : forall d, (- (0) / d == 0)%Q) by (intros d; unfold Qdiv; ring). apply PW. unfold b. rewrite D0. apply Q.max_id. }
      set (p := pw b) in *. clearbody p. clear U.
      assert (Z0 : (r * p == 0)%Q) by (rewrite B0; ring).
      destruct (Q.max_spec (r * p) (r - move)) as [[A1 B1]|[A1 B1]]; destruct (Q.max_spec 0 (r - move)) as [[A2 B2]|[A2 B2]]; rewrite B1, B2; try lra.
      - destruct (Q.min_spec (r - move) (r + move)) as [[A3 B3]|[A3 B3]]; rewrite B3;
        destruct (Q.max_spec (r - move) xmin) as [[A4 B4]|[A4 B4]]; destruct (Q.max_spec xmin (r - move)) as [[A5 B5]|[A5 B5]];
        destruct (Q.max_spec (r + move) xmin) as [[A6 B6]|[A6 B6]];
        rewrite ?B4, ?B5, ?B6;
        match goal with |- (Qmin ?a 1 == _)%Q => destruct (Q.min_spec a 1) as [[A7 B7]|[A7 B7]]; rewrite B7; lra end.
      - destruct (Q.min_spec (r * p) (r + move)) as [[A3 B3]|[A3 B3]]; rewrite B3;
        destruct (Q.max_spec (r * p) xmin) as [[A4 B4]|[A4 B4]]; destruct (Q.max_spec xmin 0) as [[A5 B5]|[A5 B5]];
        destruct (Q.max_spec (r + move) xmin) as [[A6 B6]|[A6 B6]];
        rewrite ?B4, ?B5, ?B6;
        match goal with |- (Qmin ?a 1 == _)%Q => destruct (Q.min_spec a 1) as [[A7 B7]|[A7 B7]]; rewrite B7; lra end. }
    destruct XX as [-> | ->]; [apply (V l1)|apply (V l2)]; try assumption; lra.
  - intros SG M. apply (C58_band _ _ _ _ _ _ _ _ _ _ _ _ _ _ _ _ _ ) in H1; [|exact SG|exact M]. destruct H1 as (_ & _ & H1).
    destruct (H1 k e E) as (_ & _ & B). destruct (Qlt_le_dec threshold r) as [T|T]; [|exact T]. exfalso. apply N, B.
    split; [exact G|]. right. right. exists c. split; [exact G|]. split; [exact T|]. unfold steps.
    destruct (cell_ijk g c) as [[a b] d]. lia.
Qed.
Print Assumptions C58_outside.

(** A bar of five cells with material in the first: the band of the first iteration is
    the first two cells and the kept last one, and the third and fourth cells stay void. *)
Example C58_example :
  let g := Build_grid 5 1 1 (1, 1, 1)%Q (0, 0, 0)%Q in
  sane_grid g /\
  exists fuel x es e,
  run_nb (fun b => b) g (Z.eqb 4) 0 1 (1 # 100) (1 # 2) (1 # 5) (1 # 1000) (Some 1)
    (fun _ _ r => (1%Q, map (fun _ => - (1))%Q r)) (fun _ _ d => d) fuel 2 (Some [1%Q; 0%Q; 0%Q; 0%Q; 0%Q]) = Some (x, es) /\
  length es = 2%nat /\ nth_error es 0 = Some e /\ ev_active e = [0; 1; 4] /\ ev_jit e = false /\
  (nth 2 (ev_new e) 0 == 1 # 1000)%Q.
Proof.
  intros g. assert (S : sane_grid g) by (unfold sane_grid; cbn; lia). split; [exact S|].
  destruct (C58_completes (fun b => b) g (Z.eqb 4) 0 1 (1 # 100) (1 # 2) (1 # 5) (1 # 1000) (Some 1)
    (fun _ _ r => (1%Q, map (fun _ => - (1))%Q r)) (fun _ _ d => d) 2 (Some [1%Q; 0%Q; 0%Q; 0%Q; 0%Q])) as (fuel & x & es & R).
  specialize (R O). exists (fuel + 0)%nat, x, es. pose proof R as R0. apply run_facts in R0. destruct R0 as (L & _ & R0).
  destruct (nth_error es 0) as [e|] eqn:E; [|apply nth_error_None in E; lia]. exists e. split; [exact R|]. split; [exact L|]. split; [reflexivity|].
  destruct (R0 O e E) as (sk & sk' & I & ST & _ & ->). apply step_facts in ST; [|lia|exact I]. destruct ST as (_ & F2 & _ & F4 & _).
  assert (A : ev_active e = [0; 1; 4]) by (rewrite F2; vm_compute; reflexivity).
  split; [exact A|]. split; [exact F4|].
  refine (Qeq_trans _ _ _ (proj1 (C58_outside _ _ _ _ _ _ _ _ _ _ _ _ _ _ _ _ _ R _ _ _ _ O e E 2 _ _ _)) _).
  - vm_compute; discriminate.
  - vm_compute; discriminate.
  - intros q H. exact H.
  - reflexivity.
  - unfold in_grid. vm_compute. split; [discriminate|reflexivity].
  - rewrite A. cbn. lia.
  - vm_compute. split; discriminate.
  - vm_compute. reflexivity.
Qed.

(** ** C59: the resolution ladder *)
(** r is one of the integers nearest to q. *)
Definition nearest (q : Q) (r : Z) : Prop := (Qabs (q - inject_Z r) <= 1 # 2)%Q.
Lemma py_round_nearest q : nearest q (py_round q).
Proof.
  unfold nearest, py_round. pose proof (Qfloor_le q) as A. pose proof (Qlt_floor q) as B. rewrite inject_Z_plus in B.
  change (inject_Z 1) with 1%Q in B. set (f := Qfloor q) in *.
  destruct (Qltb (q - inject_Z f) (1 # 2)) eqn:C1.
  - apply Qltb_lt in C1. rewrite Qabs_pos by lra. lra.
  - apply Qltb_ge in C1. destruct (Qltb (1 # 2) (q - inject_Z f)) eqn:C2.
    + apply Qltb_lt in C2. rewrite inject_Z_plus. change (inject_Z 1) with 1%Q. rewrite Qabs_neg by lra. lra.
    + apply Qltb_ge in C2. destruct (Z.even f).
      * rewrite Qabs_pos by lra. lra.
      * rewrite inject_Z_plus. change (inject_Z 1) with 1%Q. rewrite Qabs_neg by lra. lra.
Qed.
Lemma py_round_le q d : (q <= inject_Z d)%Q -> py_round q <= d.
Proof.
  intros H. unfold py_round. assert (F : Qfloor q <= d) by (rewrite <- (Qfloor_Z d); apply Qfloor_resp_le; exact H).
  pose proof (Qfloor_le q) as A. set (f := Qfloor q) in *.
  destruct (Qltb (q - inject_Z f) (1 # 2)) eqn:C1; [exact F|]. apply Qltb_ge in C1.
  assert (f < d). { apply Z.le_neq. split; [exact F|]. intros ->. lra. }
  destruct (Qltb _ _); [lia|]. destruct (Z.even f); lia.
Qed.

(** Consecutive levels: every dimension of the coarser one is the nearest integer to the
    finer one divided by the factor, but at least floor. *)
Definition coarser (factor : Q) (floor : Z) (c f : list Z) : Prop :=
  Forall2 (fun a b => exists r, nearest (inject_Z b / factor) r /\ a = Z.max floor r) c f.
Fixpoint chain {A} (R : A -> A -> Prop) (l : list A) : Prop :=
  match l with [] => True | a :: t => match t with [] => True | b :: _ => R a b /\ chain R t end end.

Lemma coarsen_coarser factor floor d : coarser factor floor (coarsen factor floor d) d.
Proof.
  unfold coarser, coarsen. induction d as [|x d IH]; cbn; constructor; [|exact IH].
  exists (py_round (inject_Z x / factor)). split; [apply py_round_nearest|reflexivity].
Qed.

(** The ladder ends with the requested dimensions, has at most n_levels levels, each level
    is the coarsened next one and differs from it, and it is shorter only when the first
    level cannot be coarsened any more. *)
Theorem C59_ladder :
  forall dims n_levels factor floor,
  let L := res_ladder dims n_levels factor floor in
  last L [] = dims /\ (1 <= length L)%nat /\ Z.of_nat (length L) <= Z.max 1 n_levels /\
  chain (fun c f => coarser factor floor c f /\ c <> f) L /\
  (Z.of_nat (length L) < n_levels -> coarser factor floor (hd [] L) (hd [] L)).
Proof.
  intros dims n_levels factor floor. unfold res_ladder.
  assert (G : forall k lad, lad <> [] -> last lad [] = dims -> chain (fun c f => coarser factor floor c f /\ c <> f) lad ->
    let L := ladder k factor floor lad in
    last L [] = dims /\ (length lad <= length L <= length lad + k)%nat /\ chain (fun c f => coarser factor floor c f /\ c <> f) L /\
    ((length L < length lad + k)%nat -> coarser factor floor (hd [] L) (hd [] L))).
  { induction k as [|k IH]; intros lad NE La C; cbn [ladder].
    - split; [exact La|]. split; [lia|]. split; [exact C|]. lia.
    - destruct (eqb_listZ _ _) eqn:E.
      + apply eqb_listZ_spec in E. split; [exact La|]. split; [lia|]. split; [exact C|]. intros _.
        rewrite <- E at 1. apply coarsen_coarser.
      + assert (NE' : coarsen factor floor (hd [] lad) <> hd [] lad).
        { intros Q. apply eqb_listZ_spec in Q. congruence. }
        destruct (IH (coarsen factor floor (hd [] lad) :: lad)) as (A & B & D & F).
        * discriminate.
        * destruct lad; [congruence|exact La].
        * destruct lad as [|d lad]; [exact I|]. cbn [chain hd] in *. split; [|exact C]. split; [apply coarsen_coarser|exact NE'].
        * cbn [length] in *. split; [exact A|]. split; [lia|]. split; [exact D|]. intros Q. apply F. lia. }
  destruct (G (Z.to_nat (n_levels - 1)) [dims]) as (A & B & C & D); [discriminate|reflexivity|exact I|].
  cbn [length] in *. split; [exact A|]. split; [lia|]. split; [lia|]. split; [exact C|]. intros Q. apply D. lia.
Qed.
Print Assumptions C59_ladder.

(** For a factor of at least one and dimensions of at least floor, every level is at most
    as fine as the next in every direction and no level goes below floor. *)
Theorem C59_coarsening :
  forall dims n_levels factor floor,
  (1 <= factor)%Q -> 0 <= floor -> Forall (fun d => floor <= d) dims ->
  let L := res_ladder dims n_levels factor floor in
  chain (fun c f => Forall2 Z.le c f /\ c <> f) L /\ Forall (Forall (fun d => floor <= d)) L /\ Forall (fun l => length l = length dims) L.
Proof.
  intros dims n_levels factor floor F F0 D. unfold res_ladder.
  assert (K : forall d, Forall (fun x => floor <= x) d ->
    Forall2 Z.le (coarsen factor floor d) d /\ Forall (fun x => floor <= x) (coarsen factor floor d)).
  { intros d H. unfold coarsen. induction H as [|x d Hx H [I1 I2]]; cbn; [split; constructor|]. split; constructor; try assumption; [|lia].
    assert (py_round (inject_Z x / factor) <= x); [|lia]. apply py_round_le. apply Qle_shift_div_r; [lra|].
    assert (Q0 : (0 <= inject_Z x)%Q) by (change 0%Q with (inject_Z 0); rewrite <- Zle_Qle; lia).
    assert (QQ : (inject_Z x * 1 <= inject_Z x * factor)%Q) by (rewrite !(Qmult_comm (inject_Z x)); apply Qmult_le_compat_r; assumption). lra. }
  assert (G : forall k lad, lad <> [] -> chain (fun c f => Forall2 Z.le c f /\ c <> f) lad -> Forall (Forall (fun d => floor <= d)) lad ->
    Forall (fun l => length l = length dims) lad ->
    let L := ladder k factor floor lad in
    chain (fun c f => Forall2 Z.le c f /\ c <> f) L /\ Forall (Forall (fun d => floor <= d)) L /\ Forall (fun l => length l = length dims) L).
  { induction k as [|k IH]; intros lad NE C FL LN; cbn [ladder]; [auto|]. destruct (eqb_listZ _ _) eqn:E; [auto|].
    destruct lad as [|d lad]; [congruence|]. cbn [hd] in *. inversion FL as [|? ? H1 H2]; subst. inversion LN as [|? ? H3 H4]; subst.
    destruct (K d H1) as [K1 K2]. apply IH.
    - discriminate.
    - cbn [chain]. split; [|exact C]. split; [exact K1|]. intros Q. apply eqb_listZ_spec in Q. congruence.
    - constructor; assumption.
    - constructor; [|exact LN]. unfold coarsen. rewrite map_length. exact H3. }
  apply G; [discriminate|exact I| |]; constructor; try constructor; try reflexivity. exact D.
Qed.
Print Assumptions C59_coarsening.

(** Without the guard a "coarse" level can be larger than the final one: a flat domain is
    thickened to floor cells. *)
Theorem C59_flat_domain_refuted :
  exists dims n_levels factor floor, Forall (fun d => 1 <= d) dims /\
  exists c f, res_ladder dims n_levels factor floor = [c; f] /\ f = dims /\
  fold_right Z.mul 1 f < fold_right Z.mul 1 c.
Proof.
  exists [10; 10; 1], 2, 2%Q, 8. split; [repeat constructor; discriminate|]. exists [8; 8; 8], [10; 10; 1]. vm_compute. auto.
Qed.
Print Assumptions C59_flat_domain_refuted.

(** The levels run: the first one explores from scratch, every later one is seeded by the
    previous and never solves the full grid; with at least two levels the last gets n_iter
    iterations and the others coarse_iter; the iteration numbers are consecutive. *)
Theorem C59_plan :
  forall dims n_levels n_iter coarse_iter gus factor floor,
  let L := res_ladder dims n_levels factor floor in
  let P := multires_plan dims n_levels n_iter coarse_iter gus factor floor in
  let ci := match coarse_iter with Some c => c | None => Z.max 10 (n_iter / 2) end in
  map pl_dims P = L /\
  forall i p, nth_error P i = Some p ->
    (pl_seeded p = negb (Nat.eqb i 0)) /\ pl_gus p = (if Nat.eqb i 0 then gus else 0) /\
    pl_iters p = (if Nat.eqb i 0 then ci else if Nat.eqb (S i) (length L) then n_iter else ci) /\
    pl_offset p = fold_right Z.add 0 (map pl_iters (firstn i P)).
Proof.
  intros dims n_levels n_iter coarse_iter gus factor floor. unfold multires_plan.
  set (ci := match coarse_iter with None => Z.max 10 (n_iter / 2) | Some c => c end).
  set (L := res_ladder _ _ _ _). clearbody L ci. cbv zeta.
  assert (G : forall L lvl off, map pl_dims (plan_levels lvl off gus n_iter ci L) = L /\
    forall i p, nth_error (plan_levels lvl off gus n_iter ci L) i = Some p ->
    pl_seeded p = negb (Nat.eqb (lvl + i) 0) /\ pl_gus p = (if Nat.eqb (lvl + i) 0 then gus else 0) /\
    pl_iters p = (if Nat.eqb (lvl + i) 0 then ci else if Nat.eqb (S i) (length L) then n_iter else ci) /\
    pl_offset p = off + fold_right Z.add 0 (map pl_iters (firstn i (plan_levels lvl off gus n_iter ci L)))).
  { clear L. induction L as [|d L IH]; intros lvl off; cbn [plan_levels].
    - split; [reflexivity|]. intros [|i] p H; discriminate H.
    - set (p0 := match lvl with O => _ | S _ => _ end). destruct (IH (S lvl) (off + pl_iters p0)) as [I1 I2]. split.
      + cbn [map]. rewrite I1. f_equal. unfold p0. destruct lvl; reflexivity.
      + intros [|i] p H; cbn [nth_error] in H.
        * injection H as <-. rewrite Nat.add_0_r. unfold p0. destruct lvl as [|lvl]; cbn; (do 2 (split; [reflexivity|])); (split; [|lia]); [reflexivity|].
          destruct L; reflexivity.
        * destruct (I2 i p H) as (A & B & C & D). rewrite Nat.add_succ_r. rewrite Nat.add_succ_l in *.
          split; [exact A|]. split; [exact B|]. split; [exact C|]. cbn [firstn map fold_right]. rewrite D. lia. }
  destruct (G L O 0) as [G1 G2]. split; [exact G1|]. intros i p H. apply (G2 i p H).
Qed.
Print Assumptions C59_plan.

(** With one level only, the requested iteration count is ignored. *)
Theorem C59_single_level_refuted :
  exists dims n_levels n_iter gus factor floor p,
  multires_plan dims n_levels n_iter None gus factor floor = [p] /\ pl_dims p = dims /\ 1 <= n_levels /\ pl_iters p <> n_iter.
Proof.
  exists [60; 20; 20], 1, 40, 1, 2%Q, 8. eexists. split; [reflexivity|]. split; [reflexivity|]. cbn. split; lia.
Qed.
Print Assumptions C59_single_level_refuted.

Example C59_example :
  map pl_dims (multires_plan [60; 21; 20] 3 40 None 1 2%Q 8) = [[15; 8; 8]; [30; 10; 10]; [60; 21; 20]] /\
  map pl_iters (multires_plan [60; 21; 20] 3 40 None 1 2%Q 8) = [20; 20; 40] /\
  map pl_offset (multires_plan [60; 21; 20] 3 40 None 1 2%Q 8) = [0; 20; 40].
Proof. vm_compute. auto. Qed.
