(** Model of the Helmholtz density filter. Source: /repo/feax/gene/filters.py. Real numbers. *)
From Coq Require Import Reals List Arith String.
From Verif Require Import Base Assembly_Model Dof_Model Kernel_Model.
From Verif Require Params_Model.
Import ListNotations.
Local Open Scope R_scope.
Local Open Scope string_scope.
Local Open Scope list_scope.

Definition RK : CRing := {| cth := RTheory |}.

(** filters.py:23-31 [HelmholtzFilterProblem]: at a quadrature point the variables are the interpolated
    source density and squared radius. *)
Definition tensor (g : list (list R)) (v : R * R) : list (list R) := map (map (Rmult (snd v))) g.
Definition mass (rho x : list R) (v : R * R) : list R := map (fun a => a - fst v) rho.
Definition helmholtz : physics RK (R * R) := Build_physics RK (R * R) None None (Some mass) (Some tensor) None None.

(** filters.py:78-87: element type chosen from the number of coordinates and of nodes per cell. *)
Definition element_type (coords nodes_per_cell : nat) : string * nat :=
  if (coords =? 2)%nat then ((if (nodes_per_cell =? 4)%nat then "QUAD4" else "TRI3"), 2%nat)
  else ((if (nodes_per_cell =? 8)%nat then "HEX8" else "TET4"), 3%nat).

(** assembler.py:316-356, 186-242: a nodal array at quadrature point [q] of cell [c] (the case with
    different numbers of nodes and cells, see C20). *)
Definition at_quad (f : fe RK) (a : list R) (c q : nat) : R :=
  Sum (K := RK) (fe_nn f) (fun n => fe_sv f q n * get (K := RK) a (node_of f c n)).
(** filters.py:124-125, 136-140: [r_squared] as a full nodal array, passed with the source. *)
Definition filter_vars (f : fe RK) (radius : R) (s : list R) (c q : nat) : R * R :=
  (at_quad f s c q, at_quad f (repeat (radius ^ 2) (length (fe_points f))) c q).

(** The prolongation matrix, if any: [Some (m, P)] has [m] columns. *)
Definition prolongation := option (nat * (nat -> nat -> R)).
Definition size (P : prolongation) (n : nat) : nat := match P with None => n | Some (m, _) => m end.
Definition prolong (P : prolongation) (w : nat -> R) (i : nat) : R :=
  match P with None => w i | Some (m, P) => Sum (K := RK) m (fun j => P i j * w j) end.
Definition restrict (P : prolongation) (n : nat) (r : nat -> R) (j : nat) : R :=
  match P with None => r j | Some (_, P) => Sum (K := RK) n (fun i => P i j * r i) end.

Section Filter.
Variables (dim nq : nat).
Variable det : list (list R) -> R.
Variable inv : list (list R) -> list (list R).
Variable f : fe RK.
Variables (vw : Csr_Model.view) (vj : list R -> vinp RK (R * R) -> list R) (sj : list R -> finp RK unit -> list R) (xv : vinp RK (R * R)) (xs : finp RK unit).
(** filters.py:90-97, 131-140: the problem and its parameters; no boundaries, no Dirichlet conditions. *)
Definition filter_problem (radius : R) (s : list R) : option (problem RK (vinp RK (R * R)) (finp RK unit)) :=
  build (K := RK) dim nq 0 det inv (fun _ => 0) [f] vw helmholtz (filter_vars f radius s) (@nil (bdata RK unit)) vj sj xv xs.
(** filters.py:111-118, 143-147: the result of the linear solve. The solver looks for [u = P w] with
    [P^T R(u) = 0]; [e] is what is left of the equations when it stops (C14, C36). *)
Definition filtered (bs : nat) (P : prolongation) (radius : R) (s : list R) (e : nat -> R) (u : list R) : Prop :=
  exists pb w, filter_problem radius s = Some pb /\
    (forall i, (i < pr_n pb)%nat -> get (K := RK) u i = prolong P w i) /\
    forall j, (j < size P (pr_n pb))%nat -> restrict P (pr_n pb) (get (K := RK) (get_res pb bs u)) j = e j.
End Filter.
