(** C14: the guess and the conditions passed to one call of the linear solver. *)
From Verif Require Import Base Csr_Model Csr_Proofs Assembly_Model Assembly_Spec Assembly_Proofs AssemblyMain_Proofs Values_Proofs Dof_Model Bc_Model Bc_Proofs Bc_Props
     LinSolve_Model LinSolve_Spec LinSolve_Proofs LinSolve_Props.
From Coq Require Import List Arith Lia ZArith.
Import ListNotations.

Section Lemmas.
  Variable K : CRing.
  Local Open Scope ring_K.
  Add Ring KR : (cth K).
  Lemma r_same (a : K) : a - a * 1 = 0. Proof. ring. Qed.
  Lemma r_neg0 : - (0 : K) = 0. Proof. ring. Qed.
  Lemma r_add0 (a : K) : a + 0 = a. Proof. ring. Qed.
  Lemma zero_list (v : list K) n : length v = n -> (forall i, (i < n)%nat -> get v i = 0) -> v = zeros n.
  Proof.
    intros L H. apply (nth_ext _ _ 0 0); [rewrite L; symmetry; apply repeat_length|]. intros i Hi. rewrite L in Hi.
    change (get v i = get (zeros n) i). rewrite H by exact Hi. symmetry. apply get_zeros.
  Qed.
  Lemma add_zeros (v : list K) n : length v = n -> vadd v (zeros n) = v.
  Proof.
    intros L. assert (LL : length v = length (@zeros K n)) by (rewrite L; symmetry; apply repeat_length).
    apply (nth_ext _ _ 0 0); [apply vadd_length; exact LL|]. intros i Hi. change (get (vadd v (zeros n)) i = get v i). rewrite get_vadd by exact LL. rewrite get_zeros. apply r_add0.
  Qed.
  Lemma solved_rhs Inp FInp (pb : problem K Inp FInp) bs0 bc g : (0 < bs0)%nat -> wf_problem pb -> wf_bc bc (pr_n pb) -> solves_problem pb bc g ->
    vneg (apply_res bc (get_res pb bs0 g) g 1) = zeros (pr_n pb).
  Proof.
    intros Hbs W Wb [S1 S2]. assert (Hl : length (get_res pb bs0 g) = pr_n pb) by apply get_res_length.
    apply zero_list.
    - unfold vneg. rewrite map_length. unfold apply_res. rewrite scatter_set_length. exact Hl.
    - intros i Hi. rewrite get_vneg. destruct (in_dec Nat.eq_dec i (bc_rows bc)) as [I|I].
      + apply (In_nth _ _ 0%nat) in I. destruct I as (k & Hk & <-). rewrite (get_apply_res_row (get_res pb bs0 g) g 1 Wb Hl Hk). rewrite S1 by exact Hk. rewrite r_same. apply r_neg0.
      + rewrite (get_apply_res_free (get_res pb bs0 g) g 1 i Wb I), (get_res_spec Hbs W) by exact Hi. rewrite S2 by assumption. apply r_neg0.
  Qed.
End Lemmas.

(** The call with every combination of optional arguments: the conditions are those of the call if given, else those of construction; the
    guess is that of the call if given. If it already solves the problem it is returned unchanged, by any solver (direct or iterative, converged or not) that answers a
    zero right hand side with zero. *)
Theorem C14_warm_start :
  forall (K : CRing) (Inp FInp : Type) (pb : problem K Inp FInp) (bs0 : nat) (sym direct : bool) solve (ksolve : (list K -> list K) -> list K -> list K)
         (bc0 : dirichlet K) (bc : option (dirichlet K)) (g : list K),
  let eff := match bc with Some b => b | None => bc0 end in
  0 < bs0 -> wf_problem pb -> wf_bc eff (pr_n pb) -> length g = pr_n pb ->
  (forall A, solve A (zeros (pr_n pb)) = zeros (pr_n pb)) -> (forall A, ksolve A (zeros (pr_n pb)) = zeros (pr_n pb)) ->
  solves_problem pb eff g ->
  linear_solver pb bs0 sym solve ksolve direct bc0 (Some g) bc = g.
Proof.
  intros K Inp FInp pb bs0 sym direct solve ksolve bc0 bc g eff Hbs W Wb Lg Z1 Z2 S. unfold linear_solver. fold eff.
  pose proof (solved_rhs K Inp FInp pb bs0 eff g Hbs W Wb S) as R0. destruct direct.
  - unfold linear_direct. cbv zeta. rewrite R0, Z1. apply add_zeros. exact Lg.
  - unfold linear_krylov. cbv zeta. cbn [matfree_res_J fst]. rewrite R0, Z2. apply add_zeros. exact Lg.
Qed.
Print Assumptions C14_warm_start.

(** Any guess and any override: the call solves the problem with the conditions of the call, if the inner solve is exact and, under
    symmetric elimination, the guess meets the prescribed values. *)
Theorem C14_call :
  forall (K : CRing) (Inp FInp : Type) (pb : problem K Inp FInp) (bs0 : nat) (sym : bool) solve (ksolve : (list K -> list K) -> list K -> list K)
         (bc0 : dirichlet K) (bc : option (dirichlet K)) (g : list K),
  let eff := match bc with Some b => b | None => bc0 end in
  0 < bs0 -> wf_problem pb -> affine_problem pb -> wf_bc eff (pr_n pb) -> length g = pr_n pb ->
  (let b := vneg (fst (matfree_res_J pb bs0 sym g eff)) in
   let A := snd (matfree_res_J pb bs0 sym g eff) in exact_op (pr_n pb) A (ksolve A b) b) ->
  sym = false \/ (forall k, k < length (bc_rows eff) -> get g (nth k (bc_rows eff) 0) = get (bc_vals eff) k) ->
  solves_problem pb eff (linear_solver pb bs0 sym solve ksolve false bc0 (Some g) bc).
Proof. intros K Inp FInp pb bs0 sym solve ksolve bc0 bc g eff Hbs W Aff Wb Lg Ex Sy. unfold linear_solver. fold eff. apply C14_krylov; assumption. Qed.
Print Assumptions C14_call.

(** The chain of C14: [5; 11; 14] solves it and is returned when given as the guess, with the conditions overridden in the call. *)
Example C14_warm_example :
  let pb := chain FULL 1 (-1) (-1) 1 in let g := [5; 11; 14]%Z : list ZK in
  solves_problem pb (chain_bc 5) g /\ inv_row (zeros 3) = zeros 3 /\ inv_sym (zeros 3) = zeros 3 /\
  linear_solver pb 256 false (fun _ => inv_row) (fun _ => inv_sym) true (chain_bc 8) (Some g) (Some (chain_bc 5)) = g.
Proof.
  cbv zeta. assert (S : solves_problem (chain FULL 1 (-1) (-1) 1) (chain_bc 5) ([5; 11; 14]%Z : list ZK)).
  { assert (E : [5; 11; 14]%Z = linear_direct (chain FULL 1 (-1) (-1) 1) 256 false (fun _ => inv_row) [1; 1; 7]%Z (chain_bc 5)) by (vm_compute; reflexivity). rewrite E.
    apply (proj1 C14_example). }
  split; [exact S|]. split; [reflexivity|]. split; [reflexivity|].
  apply (C14_warm_start ZK _ _ _ 256 false true _ _ (chain_bc 8) (Some (chain_bc 5))); try (intros; reflexivity); try lia; [apply chain_wf|apply chain_bc_wf|exact S].
Qed.
