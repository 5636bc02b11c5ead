(** C92: the levels the solver builds satisfy what the solve theorems ask of them. *)
From Coq Require Import Reals List Arith Lia Lra Bool ZArith QArith Qreals.
From Verif Require Import Base ZArr Grid_Model Cmg_Model Cmg_Proofs Smooth_Proofs Cmg_Props.
From Verif Require CmgSolve_Model.
From Verif Require Import CmgLevels_Model CmgSolve_Props CmgPad_Props.
Import ListNotations.

Lemma edof_row_len nodes : length (edof_row nodes) = (3 * length nodes)%nat.
Proof. induction nodes as [|n t IH]; [reflexivity|]. unfold edof_row in *. cbn [flat_map app length]. rewrite IH. lia. Qed.
Lemma edof_row_lt nodes N : (forall n, In n nodes -> (n < N)%nat) -> forall i, In i (edof_row nodes) -> (i < 3 * N)%nat.
Proof.
  intros H i Hi. unfold edof_row in Hi. apply in_flat_map in Hi. destruct Hi as (n & Hn & Hi). specialize (H n Hn).
  cbn [In] in Hi. destruct Hi as [<-|[<-|[<-|[]]]]; lia.
Qed.
Lemma raw_wf fixed L d cells0 l lev next : dims_pos d -> (forall e, In e cells0 -> (0 <= e < dims_cells d)%Z) ->
  nth_error (build L d cells0) l = Some lev -> wf_raw (raw_of fixed lev next).
Proof.
  intros P C F. destruct (level_wf L d cells0 l lev P C F) as (W & _). split; cbn [raw_of CmgSolve_Model.r_free CmgSolve_Model.r_edof CmgSolve_Model.ncell CmgSolve_Model.nnode].
  - intros i. destruct (fixed _ _); [left|right]; reflexivity.
  - intros e a He Ha. assert (He' : (e < length (level_cells lev))%nat) by (unfold level_cells; rewrite map_length; exact He).
    destruct (W e He') as (_ & B). unfold level_cells in B. assert (Q : nth e (map (ncid lev) (l_cells lev)) [] = ncid lev (nth e (l_cells lev) 0%Z)) by (apply nth_map_in; exact He). rewrite Q in B.
    apply (edof_row_lt _ _ B). apply nth_In. rewrite edof_row_len. unfold ncid, cell_nodes. rewrite !map_length. cbn [length cmg_corners]. exact Ha.
Qed.
Lemma raw_into fixed L d cells0 l lev c next : dims_pos d -> (forall e, In e cells0 -> (0 <= e < dims_cells d)%Z) ->
  nth_error (build L d cells0) l = Some lev -> nth_error (build L d cells0) (S l) = Some c ->
  into (raw_of fixed lev c) (raw_of fixed c next).
Proof.
  intros P C F G n k Hn Hk Hw. cbn [raw_of CmgSolve_Model.r_w CmgSolve_Model.r_idx CmgSolve_Model.nnode] in *.
  destruct (C32_prolongation L d cells0 l lev c (nth n (l_nodes lev) 0%Z) P C F G (nth_In _ _ Hn)) as (LEN & B & _).
  set (row := transfer lev c (nth n (l_nodes lev) 0%Z)) in *. destruct (nth k row (0%nat, 0%Q)) as [i w] eqn:E. cbn [fst snd] in *.
  destruct (B i w) as (B1 & B2). { rewrite <- E. apply nth_In. lia. }
  apply B2. destruct (Qlt_le_dec 0 w) as [H|H]; [exact H|]. exfalso. apply Hw.
  assert (Q : (w == 0)%Q) by (apply Qle_antisym; assumption). rewrite (Qeq_eqR _ _ Q). unfold Q2R. cbn. lra.
Qed.
(** For every grid and active set: each level's dofs are in range with a 0/1 mask, and every weighted
    prolongation index is a node of the next level. *)
Theorem C92_levels : forall fixed L d cells0, dims_pos d -> (forall e, In e cells0 -> (0 <= e < dims_cells d)%Z) ->
  let levels := raws_of fixed (build L d cells0) in
  length levels = L /\ (forall l, In l levels -> wf_raw l) /\
  forall Es, length Es = L -> chain (combine levels Es).
Proof.
  intros fixed L d cells0 P C levels. unfold levels. clear levels.
  assert (LEN : forall ls, length (raws_of fixed ls) = length ls) by (induction ls as [|x t IH]; [reflexivity|cbn [raws_of length]; rewrite IH; reflexivity]).
  assert (BL : length (build L d cells0) = L).
  { unfold build. generalize (sortZ cells0). clear. revert d. induction L as [|L IH]; intros d cs; [reflexivity|]. cbn [build_levels length]. rewrite IH. reflexivity. }
  split; [rewrite LEN; exact BL|].
  assert (G : forall ls k, (forall i, nth_error ls i = nth_error (build L d cells0) (k + i)%nat) ->
    (forall l, In l (raws_of fixed ls) -> wf_raw l) /\ forall Es, length Es = length ls -> chain (combine (raws_of fixed ls) Es)).
  { induction ls as [|x t IH]; intros k H.
    - split; [intros l []|]. intros [|E Es] HE; [exact I|discriminate].
    - assert (HX := H 0%nat). rewrite Nat.add_0_r in HX. cbn [nth_error] in HX. symmetry in HX.
      destruct (IH (S k)) as (A & B). { intros i. specialize (H (S i)). cbn [nth_error] in H. rewrite H. f_equal. lia. }
      split.
      + intros l [<-|Hl]; [exact (raw_wf fixed L d cells0 k x _ P C HX)|exact (A l Hl)].
      + intros [|E Es] HE; [discriminate|]. cbn [length] in HE. injection HE as HE. specialize (B Es HE).
        destruct t as [|c t]; cbn [raws_of combine chain]; [split; exact I|].
        destruct Es as [|E' Es]; [discriminate|]. cbn [raws_of combine chain] in B |- *. split; [|exact B]. cbn [fst].
        apply (raw_into fixed L d cells0 k x c _ P C HX). specialize (H 1%nat). cbn [nth_error] in H. rewrite H. f_equal. lia. }
  destruct (G (build L d cells0) 0%nat (fun i => eq_refl)) as (A & B). split; [exact A|]. intros Es HE. apply B. rewrite BL. exact HE.
Qed.
Print Assumptions C92_levels.
(** So, whatever grid, active set, supports, design and bucket size are used, the whole solve does not
    depend on the bucket size. *)
Theorem C92_bucket_free : forall fixed L d cells0 Es KE coarse pre post tol maxit rhs b1 b2 l0 rest,
  dims_pos d -> (forall e, In e cells0 -> (0 <= e < dims_cells d)%Z) -> length Es = L -> (0 < b1)%nat -> (0 < b2)%nat ->
  combine (raws_of fixed (build L d cells0)) Es = l0 :: rest ->
  CmgSolve_Model.raw_solve KE coarse pre post tol maxit b1 l0 rest rhs = CmgSolve_Model.raw_solve KE coarse pre post tol maxit b2 l0 rest rhs.
Proof.
  intros fixed L d cells0 Es KE coarse pre post tol maxit rhs b1 b2 l0 rest P C HE H1 H2 Q. apply C92_bucket; try assumption.
  rewrite <- Q. apply (C92_levels fixed L d cells0 P C). exact HE.
Qed.
Print Assumptions C92_bucket_free.
(** A 2 x 2 x 1 grid with three active cells and the x = 0 face fixed: two levels, 16 of 18 nodes. *)
Example C92_levels_example :
  let d := (2, 2, 1)%Z in let fixed := fun (p q : ijk) => let '(i, _, _) := p in (i =? 0)%Z in
  let ls := raws_of fixed (build 2 d [0; 1; 2]%Z) in
  dims_pos d /\ (forall e, In e [0; 1; 2]%Z -> (0 <= e < dims_cells d)%Z) /\
  map CmgSolve_Model.nnode ls = [16; 8]%nat /\ map CmgSolve_Model.ncell ls = [3; 1]%nat.
Proof.
  cbv zeta. split; [cbv; auto|]. split; [intros e H; cbn in H; cbv [dims_cells]; lia|]. split; reflexivity.
Qed.
