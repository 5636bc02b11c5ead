(** C92: what one colour of the smoother does, and the two grid transfers. *)
From Coq Require Import Reals List Arith Lia Lra Bool ZArith.
From Verif Require Import Tmc_Model Tmc_Props Adaptive_Model Adaptive_Props CmgSolve_Model CmgElem_Props CmgSolve_Props CmgPad_Props.
From Verif Require Base Grid_Model Cmg_Model Cmg_Proofs Smooth_Proofs Cmg_Props.
From Verif Require Import CmgLevels_Model CmgLevels_Props.
Import ListNotations.
Local Open Scope R_scope.

(** Compact node of corner [a] of cell [e]. *)
Definition nd (L : lev) (e a : nat) : nat := (edof L e (3 * a) / 3)%nat.
(** A level as the smoother needs it: in every cell that has a modulus, dofs are numbered node by node and
    the eight nodes have different colours; a node is fixed or free as a whole. *)
Record coloured (L : lev) : Prop := {
  col_dof : forall e a k, (e < CE L)%nat -> Ev L e <> 0 -> (a < 8)%nat -> (k < 3)%nat -> edof L e (3 * a + k) = (3 * nd L e a + k)%nat;
  col_sep : forall e a a', (e < CE L)%nat -> Ev L e <> 0 -> (a < 8)%nat -> (a' < 8)%nat -> color L (nd L e a) = color L (nd L e a') -> a = a';
  col_whole : forall n k, (k < 3)%nat -> free L (3 * n + k)%nat = free L (3 * n)%nat }.

Lemma rs_by3 N f : rs (3 * N) f = rs N (fun m => rs 3 (fun k => f (3 * m + k)%nat)).
Proof.
  induction N as [|N IH]; [reflexivity|]. replace (3 * S N)%nat with (S (S (S (3 * N)))) by lia. cbn [rs]. rewrite IH. cbn [rs].
  replace (3 * N + 0)%nat with (3 * N)%nat by lia. replace (3 * N + 1)%nat with (S (3 * N)) by lia. replace (3 * N + 2)%nat with (S (S (3 * N))) by lia. ring.
Qed.
Lemma rs_one n j f : (j < n)%nat -> (forall i, (i < n)%nat -> i <> j -> f i = 0) -> rs n f = f j.
Proof.
  intros H Z. rewrite <- (rs_delta n j f H). apply rs_ext. intros i Hi. destruct (Nat.eqb_spec i j); [ring|]. rewrite Z by assumption. ring.
Qed.
Lemma eqb_block n m i k : (i < 3)%nat -> (k < 3)%nat -> (3 * m + k =? 3 * n + i)%nat = ((m =? n)%nat && (k =? i)%nat)%bool.
Proof. intros Hi Hk. destruct (Nat.eqb_spec m n), (Nat.eqb_spec k i), (Nat.eqb_spec (3 * m + k) (3 * n + i)); cbn [andb]; try reflexivity; lia. Qed.

(** The part of the assembled stiffness between two nodes of one colour. *)
Lemma same_colour KE L n m i j : coloured L -> color L n = color L m -> (i < 3)%nat -> (j < 3)%nat ->
  stiff KE L (3 * n + i) (3 * m + j) = if (n =? m)%nat then blk KE L n i j else 0.
Proof.
  intros Co Cnm Hi Hj. unfold stiff, blk.
  transitivity (rs (CE L) (fun e => if (n =? m)%nat then rs 8 (fun a => if (nd L e a =? n)%nat then Ev L e * KE (3 * a + i)%nat (3 * a + j)%nat else 0) else 0)).
  2:{ destruct (n =? m)%nat; [|apply rs_zero; reflexivity]. rewrite rs_swap. reflexivity. }
  apply rs_ext. intros e He. destruct (Req_dec (Ev L e) 0) as [Z|NZ].
  { rewrite rs_zero by (intros; apply rs_zero; intros; rewrite Z; ring). destruct (n =? m)%nat; [|reflexivity]. symmetry. apply rs_zero. intros a _. destruct (nd L e a =? n)%nat; [rewrite Z; ring|reflexivity]. }
  change 24%nat with (3 * 8)%nat. rewrite rs_by3.
  rewrite (rs_ext 8 _ (fun a => rs 8 (fun b => ind (nd L e a =? n)%nat * ind (nd L e b =? m)%nat * (Ev L e * KE (3 * a + i)%nat (3 * b + j)%nat)))).
  2:{ intros a Ha. rewrite (rs_one 3 i) by (first [exact Hi | intros k Hk Nk; apply rs_zero; intros b Hb; rewrite (col_dof L Co e a k He NZ Ha Hk), eqb_block by assumption;
        destruct (Nat.eqb_spec k i); [contradiction|]; rewrite andb_false_r; unfold ind; ring]).
      rewrite rs_by3. apply rs_ext. intros b Hb. rewrite (rs_one 3 j) by (first [exact Hj | intros k Hk Nk; rewrite (col_dof L Co e b k He NZ Hb Hk), (eqb_block m) by assumption;
        destruct (Nat.eqb_spec k j); [contradiction|]; rewrite andb_false_r; unfold ind; ring]).
      rewrite (col_dof L Co e a i He NZ Ha Hi), (col_dof L Co e b j He NZ Hb Hj), !eqb_block, !Nat.eqb_refl, !andb_true_r by assumption. reflexivity. }
  assert (SEP : forall a b, (a < 8)%nat -> (b < 8)%nat -> nd L e a = n -> nd L e b = m -> a = b).
  { intros a b Ha Hb En Em. apply (col_sep L Co e a b He NZ Ha Hb). rewrite En, Em. exact Cnm. }
  destruct (Nat.eqb_spec n m) as [<-|D].
  - apply rs_ext. intros a Ha. rewrite (rs_one 8 a).
    + unfold ind. destruct (nd L e a =? n)%nat; ring.
    + exact Ha.
    + intros b Hb Nb. unfold ind. destruct (Nat.eqb_spec (nd L e a) n) as [Ea|]; [|ring]. destruct (Nat.eqb_spec (nd L e b) n) as [Eb|]; [|ring]. exfalso. apply Nb. symmetry. apply SEP; assumption.
  - apply rs_zero. intros a Ha. apply rs_zero. intros b Hb. unfold ind. destruct (Nat.eqb_spec (nd L e a) n) as [Ea|]; [|ring]. destruct (Nat.eqb_spec (nd L e b) m) as [Eb|]; [|ring].
    exfalso. apply D. rewrite <- Ea, <- Eb, (SEP a b) by assumption. reflexivity.
Qed.

(** One colour of a sweep is exact block Gauss-Seidel: dofs of other colours keep their values, and after
    the update every equation of a free node of this colour holds exactly (all its other unknowns being
    the values just kept), whenever the node's 3x3 diagonal block is invertible. *)
Theorem C92_gauss_seidel : forall KE L b c u, wf L -> symmetric KE -> coloured L -> masked L u ->
  let u' := colour_step KE L b c u in
  (forall i, color L (i / 3) <> c -> u' i = u i) /\
  (forall n k, (k < 3)%nat -> color L n = c -> free L (3 * n)%nat = 1 ->
     det3 (fun i j => stiff KE L (3 * n + i) (3 * n + j)) <> 0 ->
     rs (3 * CN L) (fun j => stiff KE L (3 * n + k) j * u' j) = b (3 * n + k)%nat).
Proof.
  intros KE L b c u W Sy Co M u'. unfold u'. clear u'. split.
  - intros i H. unfold colour_step. destruct (Nat.eqb_spec (color L (i / 3)) c); [contradiction|]. rewrite Rmult_0_l, Rplus_0_r. apply masked_free; assumption.
  - intros n k Hk Hc F D.
    assert (Hn : (n < CN L)%nat). { destruct (Nat.lt_ge_cases n (CN L)) as [H|H]; [exact H|]. rewrite (wf_out L W (3 * n)) in F by lia. lra. }
    assert (Dv : forall k0 m, (k0 < 3)%nat -> ((3 * m + k0) / 3 = m /\ (3 * m + k0) mod 3 = k0)%nat).
    { intros k0 m H. split; [rewrite Nat.mul_comm, Nat.div_add_l by lia; rewrite Nat.div_small by lia; lia|].
      rewrite Nat.add_comm, Nat.mul_comm, Nat.mod_add by lia. apply Nat.mod_small. exact H. }
    assert (BD : forall i j, (i < 3)%nat -> (j < 3)%nat -> stiff KE L (3 * n + i) (3 * n + j) = blk KE L n i j).
    { intros i j Hi Hj. rewrite (same_colour KE L n n i j Co eq_refl Hi Hj), Nat.eqb_refl. reflexivity. }
    assert (DB : det3 (blk KE L n) <> 0).
    { intros Z. apply D. rewrite <- Z. unfold det3. rewrite !BD by lia. reflexivity. }
    rewrite (rs_ext (3 * CN L) _ (fun j => stiff KE L (3 * n + k) j * u j + stiff KE L (3 * n + k) j *
        ((if (color L (j / 3) =? c)%nat then 1 else 0) * rs 3 (fun l => dinv KE L (j / 3) (j mod 3) l * resid KE L b u (3 * (j / 3) + l)%nat) * free L j))).
    2:{ intros j _. unfold colour_step. rewrite Rmult_plus_distr_r, (masked_free L W u j M). ring. }
    rewrite rs_plus.
    assert (FK : free L (3 * n + k)%nat = 1) by (rewrite (col_whole L Co n k Hk); exact F).
    assert (MV : mv KE L u (3 * n + k)%nat = rs (3 * CN L) (fun j => stiff KE L (3 * n + k) j * u j)) by (rewrite (mv_stiff KE L W u _ Sy), FK; ring).
    rewrite <- MV. clear MV.
    assert (E : rs (3 * CN L) (fun j => stiff KE L (3 * n + k) j *
        ((if (color L (j / 3) =? c)%nat then 1 else 0) * rs 3 (fun l => dinv KE L (j / 3) (j mod 3) l * resid KE L b u (3 * (j / 3) + l)%nat) * free L j)) = resid KE L b u (3 * n + k)%nat).
    { rewrite rs_by3, (rs_one (CN L) n _ Hn).
      - rewrite (rs_ext 3 _ (fun j => rs 3 (fun l => blk KE L n k j * inv3 (blk KE L n) j l * resid KE L b u (3 * n + l)%nat))).
        + rewrite rs_swap. rewrite (rs_ext 3 _ (fun l => (if (k =? l)%nat then 1 else 0) * resid KE L b u (3 * n + l)%nat)).
          * rewrite (rs_one 3 k); [rewrite Nat.eqb_refl; ring|exact Hk|]. intros l Hl Nl. destruct (Nat.eqb_spec k l); [subst; contradiction|ring].
          * intros l Hl. rewrite rs_scale_r. f_equal. apply inv3_right; assumption.
        + intros j Hj. destruct (Dv j n Hj) as [-> ->]. rewrite (col_whole L Co n j Hj), F, Hc, Nat.eqb_refl, BD by assumption.
          rewrite Rmult_1_l, Rmult_1_r, <- rs_scale. apply rs_ext. intros l Hl. unfold dinv. rewrite F.
          assert (I : inv3 (fun i j0 => if Rlt_dec 0 1 then blk KE L n i j0 else if (i =? j0)%nat then 1 else 0) = inv3 (blk KE L n)).
          { destruct (Rlt_dec 0 1) as [_|Q]; [reflexivity|lra]. }
          rewrite I. ring.
      - intros m Hm Nm. apply rs_zero. intros j Hj. destruct (Dv j m Hj) as [-> ->]. destruct (Nat.eqb_spec (color L m) c) as [Cm|]; [|ring].
        rewrite (same_colour KE L n m k j Co) by (try assumption; congruence). destruct (Nat.eqb_spec n m); [subst; contradiction|ring]. }
    rewrite E. unfold resid. rewrite FK. ring.
Qed.
Print Assumptions C92_gauss_seidel.

(** Restriction is the transpose of prolongation (on vectors that vanish on fixed dofs), and neither
    writes on a fixed dof of the level it produces. *)
Theorem C92_transfers : forall L C r ec, wf L -> wf C ->
  (forall n k, (n < CN L)%nat -> (k < 8)%nat -> Pw L n k <> 0 -> (Pidx L n k < CN C)%nat) ->
  masked L r -> masked C ec ->
  vdot (3 * CN C) (restrict L C r) ec = vdot (3 * CN L) r (prolong L C ec) /\
  masked C (restrict L C r) /\ masked L (prolong L C ec).
Proof.
  intros L C r ec WL WC P Mr Me. split; [|split].
  - assert (Dv : forall k0 m, (k0 < 3)%nat -> ((3 * m + k0) / 3 = m /\ (3 * m + k0) mod 3 = k0)%nat).
    { intros k0 m H. split; [rewrite Nat.mul_comm, Nat.div_add_l by lia; rewrite Nat.div_small by lia; lia|].
      rewrite Nat.add_comm, Nat.mul_comm, Nat.mod_add by lia. apply Nat.mod_small. exact H. }
    unfold vdot, restrict, prolong. rewrite (rs_by3 (CN C)), (rs_by3 (CN L)).
    rewrite (rs_ext (CN C) _ (fun m => rs (CN L) (fun n => rs 8 (fun k => rs 3 (fun c => ind (Pidx L n k =? m)%nat * (Pw L n k * r (3 * n + c)%nat * ec (3 * m + c)%nat)))))).
    2:{ intros m Hm. rewrite (rs_ext 3 _ (fun c => rs (CN L) (fun n => rs 8 (fun k => ind (Pidx L n k =? m)%nat * (Pw L n k * r (3 * n + c)%nat * ec (3 * m + c)%nat))))).
        - rewrite rs_swap. apply rs_ext. intros n Hn. apply rs_swap.
        - intros c Hc. destruct (Dv c m Hc) as [-> ->]. rewrite Rmult_assoc, (Rmult_comm (free C _)), (masked_free C WC ec _ Me), <- rs_scale_r. apply rs_ext. intros n Hn. rewrite <- rs_scale_r.
          apply rs_ext. intros k Hk. unfold ind. destruct (Pidx L n k =? m)%nat; ring. }
    rewrite rs_swap. apply rs_ext. intros n Hn. rewrite rs_swap.
    rewrite (rs_ext 3 _ (fun c => rs 8 (fun k => r (3 * n + c)%nat * (Pw L n k * ec (3 * Nat.min (Pidx L n k) (CN C - 1) + c)%nat)))).
    2:{ intros c Hc. destruct (Dv c n Hc) as [-> ->]. rewrite (Rmult_comm (rs 8 _)), <- Rmult_assoc, (masked_free L WL r _ Mr), <- rs_scale. reflexivity. }
    rewrite (rs_swap 3 8). apply rs_ext. intros k Hk. destruct (Req_dec (Pw L n k) 0) as [Z|NZ].
    + rewrite Z. rewrite rs_zero by (intros; apply rs_zero; intros; ring). symmetry. apply rs_zero. intros. ring.
    + pose proof (P n k Hn Hk NZ) as HP. rewrite (rs_one (CN C) (Pidx L n k)).
      * apply rs_ext. intros c Hc. rewrite Nat.eqb_refl, Nat.min_l by lia. unfold ind. ring.
      * exact HP.
      * intros m Hm Nm. apply rs_zero. intros c _. destruct (Nat.eqb_spec (Pidx L n k) m); [subst; contradiction|]. unfold ind. ring.
  - intros i H. unfold restrict. rewrite H. ring.
  - intros i H. unfold prolong. rewrite H. ring.
Qed.
Print Assumptions C92_transfers.

Lemma edof_row_nth nodes : forall a k, (a < length nodes)%nat -> (k < 3)%nat -> nth (3 * a + k) (Cmg_Model.edof_row nodes) 0%nat = (3 * nth a nodes 0 + k)%nat.
Proof.
  induction nodes as [|n t IH]; intros a k Ha Hk; [cbn in Ha; lia|]. unfold Cmg_Model.edof_row in *. cbn [flat_map].
  destruct a as [|a].
  - destruct k as [|[|[|k]]]; try lia; cbn [Nat.mul Nat.add nth app]; lia.
  - replace (3 * S a + k)%nat with (S (S (S (3 * a + k)))) by lia. cbn [app nth length] in *. apply IH; lia.
Qed.
(** Every level the solver builds, padded to any capacity and with any moduli, meets these conditions. *)
Theorem C92_levels_coloured : forall fixed L d cells0, Cmg_Proofs.dims_pos d -> (forall e, In e cells0 -> (0 <= e < Cmg_Proofs.dims_cells d)%Z) ->
  forall l lv next cn ce E, nth_error (Cmg_Model.build L d cells0) l = Some lv -> coloured (pad cn ce (raw_of fixed lv next) E).
Proof.
  intros fixed L d cells0 P C l lv next cn ce E F.
  destruct (Cmg_Props.level_wf L d cells0 l lv P C F) as (Wc & Sep).
  assert (CN : forall e, (e < length (Cmg_Model.l_cells lv))%nat -> nth e (Cmg_Props.level_cells lv) [] = Cmg_Model.ncid lv (nth e (Cmg_Model.l_cells lv) 0%Z)) by (intros e He; unfold Cmg_Props.level_cells; apply Base.nth_map_in; exact He).
  assert (LC : length (Cmg_Props.level_cells lv) = length (Cmg_Model.l_cells lv)) by apply map_length.
  assert (IN : forall e, Ev (pad cn ce (raw_of fixed lv next) E) e <> 0 -> (e < length (Cmg_Model.l_cells lv))%nat).
  { intros e. cbn [pad Ev raw_of ncell]. destruct (Nat.ltb_spec e (length (Cmg_Model.l_cells lv))); [trivial|]. intros H'; exfalso; apply H'; reflexivity. }
  assert (L8 : forall e, length (Cmg_Model.ncid lv e) = 8%nat) by (intros; unfold Cmg_Model.ncid, Cmg_Model.cell_nodes; rewrite !map_length; reflexivity).
  assert (ED : forall e a k, (e < length (Cmg_Model.l_cells lv))%nat -> (a < 8)%nat -> (k < 3)%nat ->
     edof (pad cn ce (raw_of fixed lv next) E) e (3 * a + k) = (3 * nth a (nth e (Cmg_Props.level_cells lv) []) 0 + k)%nat).
  { intros e a k He Ha Hk. cbn [pad edof raw_of ncell r_edof]. destruct (Nat.ltb_spec e (length (Cmg_Model.l_cells lv))); [|lia].
    rewrite edof_row_nth by (rewrite ?L8; assumption). rewrite CN by exact He. reflexivity. }
  assert (ND : forall e a, (e < length (Cmg_Model.l_cells lv))%nat -> (a < 8)%nat -> nd (pad cn ce (raw_of fixed lv next) E) e a = nth a (nth e (Cmg_Props.level_cells lv) []) 0%nat).
  { intros e a He Ha. unfold nd. replace (3 * a)%nat with (3 * a + 0)%nat by lia. rewrite ED by (assumption || lia). rewrite Nat.add_0_r, Nat.mul_comm. apply Nat.div_mul. lia. }
  split.
  - intros e a k He NZ Ha Hk. rewrite ND, ED by (auto). reflexivity.
  - intros e a a' He NZ Ha Ha' HC. pose proof (IN e NZ) as He'. rewrite !ND in HC by assumption.
    assert (He2 : (e < length (Cmg_Props.level_cells lv))%nat) by (rewrite LC; exact He').
    destruct (Wc e He2) as (N & B).
    set (row := nth e (Cmg_Props.level_cells lv) []) in *.
    assert (LR : length row = 8%nat) by (unfold row; rewrite CN by exact He'; apply L8).
    assert (B1 := B _ (nth_In row 0%nat (eq_ind_r (fun z => (a < z)%nat) Ha LR))). assert (B2 := B _ (nth_In row 0%nat (eq_ind_r (fun z => (a' < z)%nat) Ha' LR))).
    cbn [pad color raw_of nnode r_color] in HC.
    destruct (Nat.ltb_spec (nth a row 0%nat) (length (Cmg_Model.l_nodes lv))); [|lia]. destruct (Nat.ltb_spec (nth a' row 0%nat) (length (Cmg_Model.l_nodes lv))); [|lia].
    destruct (Cmg_Props.C33_colours L d cells0 l lv P C F) as (_ & _ & B7).
    assert (HC' : Cmg_Props.level_color lv (nth a row 0%nat) = Cmg_Props.level_color lv (nth a' row 0%nat)).
    { unfold Cmg_Props.level_color. rewrite !(nth_indep (Cmg_Model.l_nodes lv) (-1)%Z 0%Z) by assumption. apply Z2Nat.inj; [apply B7|apply B7|exact HC]. }
    apply (proj1 (NoDup_nth row 0%nat) N a a'); [lia|lia|].
    apply (Sep (Cmg_Props.level_color lv (nth a row 0%nat)) e); [exact He2|apply (nth_In row); rewrite LR; assumption|apply (nth_In row); rewrite LR; assumption| |]; unfold Cmg_Props.has_colour; apply Z.eqb_eq; [reflexivity|symmetry; exact HC'].
  - intros n k Hk. cbn [pad free raw_of nnode r_free].
    assert (Q : ((3 * n + k) / 3 = n)%nat) by (rewrite Nat.mul_comm, Nat.div_add_l by lia; rewrite Nat.div_small by lia; lia).
    assert (Q0 : ((3 * n) / 3 = n)%nat) by (rewrite Nat.mul_comm; apply Nat.div_mul; lia). rewrite Q, Q0.
    destruct (Nat.ltb_spec (3 * n + k) (3 * length (Cmg_Model.l_nodes lv))), (Nat.ltb_spec (3 * n) (3 * length (Cmg_Model.l_nodes lv))); try reflexivity; lia.
Qed.
Print Assumptions C92_levels_coloured.

(** A unit cell with three free nodes and element matrix 2 on, 1 off the diagonal: the hypotheses hold at
    node 0, whose diagonal block has determinant 4. *)
Definition one_cell : lev := {| CN := 8; CE := 1; edof := fun _ a => a; free := fun i => if (i <? 9)%nat then 1 else 0; color := fun n => n; Ev := fun _ => 1; Pidx := fun _ _ => 0%nat; Pw := fun _ _ => 0 |}.
Definition two_one (a b : nat) : R := if (a =? b)%nat then 2 else 1.
Lemma one_cell_colored : coloured one_cell.
Proof.
  assert (ND : forall e a, nd one_cell e a = a) by (intros e a; unfold nd; cbn [one_cell edof]; rewrite Nat.mul_comm; apply Nat.div_mul; lia).
  split; intros.
  - rewrite ND. reflexivity.
  - rewrite !ND in *. assumption.
  - cbn [one_cell free]. destruct (Nat.ltb_spec (3 * n + k) 9), (Nat.ltb_spec (3 * n) 9); try reflexivity; lia.
Qed.
Example C92_gauss_seidel_example :
  wf one_cell /\ symmetric two_one /\ coloured one_cell /\ masked one_cell (fun _ => 0) /\ color one_cell 0 = 0%nat /\ free one_cell (3 * 0)%nat = 1 /\
  det3 (fun i j => stiff two_one one_cell (3 * 0 + i) (3 * 0 + j)) = 4 /\ det3 (fun i j => stiff two_one one_cell (3 * 0 + i) (3 * 0 + j)) <> 0.
Proof.
  assert (S : forall i j, (i < 3)%nat -> (j < 3)%nat -> stiff two_one one_cell (3 * 0 + i) (3 * 0 + j) = two_one i j).
  { intros i j Hi Hj. rewrite (same_colour two_one one_cell 0 0 i j one_cell_colored eq_refl Hi Hj). cbn [Nat.eqb]. unfold blk.
    rewrite (rs_one 8 0); [|lia|].
    - cbn [one_cell CE rs edof Ev Nat.mul Nat.add]. change (0 / 3 =? 0)%nat with true. cbv iota. ring.
    - intros a Ha Na. cbn [one_cell CE rs edof Ev]. rewrite (Nat.mul_comm 3 a), Nat.div_mul by lia. destruct (Nat.eqb_spec a 0); [contradiction|ring]. }
  assert (D : det3 (fun i j => stiff two_one one_cell (3 * 0 + i) (3 * 0 + j)) = 4) by (unfold det3; rewrite !S by lia; unfold two_one; cbn [Nat.eqb]; ring).
  split; [|split; [|split; [|split; [|split; [|split; [|split]]]]]].
  - split; cbn [one_cell free CN CE edof].
    + intros i. destruct (i <? 9)%nat; [right|left]; reflexivity.
    + intros i Hi. destruct (Nat.ltb_spec i 9); [lia|reflexivity].
    + intros e a _ Ha. lia.
  - intros a b _ _. unfold two_one. rewrite Nat.eqb_sym. reflexivity.
  - exact one_cell_colored.
  - intros i _. reflexivity.
  - reflexivity.
  - cbn. reflexivity.
  - exact D.
  - rewrite D. lra.
Qed.
