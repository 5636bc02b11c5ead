(** Third-medium contact (feax/mechanics/tmc.py), over the real numbers. *)
From Coq Require Import Reals List Arith.
Import ListNotations.
Open Scope R_scope.

Fixpoint rs (n : nat) (f : nat -> R) : R := match n with O => 0 | S m => rs m f + f m end.

(** tmc.py:55-96 [classify_medium_cells]: the centroid of the first [n_corner] nodes of each cell. *)
Definition centroid (dim : nat) (points : list (list R)) (cell : list nat) (n_corner : nat) : list R :=
  let c := firstn n_corner cell in
  map (fun i => fold_right Rplus 0 (map (fun n => nth i (nth n points []) 0) c) / INR (length c)) (seq 0 dim).
Definition classify_medium_cells (dim : nat) (points : list (list R)) (cells : list (list nat))
    (is_medium_fn : list R -> bool) (n_corner : nat) : list R :=
  map (fun cell => if is_medium_fn (centroid dim points cell n_corner) then 1 else 0) cells.

(** tmc.py:130-136 [safe_lnJ]. *)
Definition J_min : R := / 10000.
Definition ln_ext (J : R) : R := let s := (J - J_min) / J_min in ln J_min + s - 1 / 2 * (s * s).
Definition safe_lnJ (J : R) : R := if Rlt_dec J_min J then ln J else ln_ext J.

(** tmc.py:138-146 [psi], in terms of [tr C] and [J = det F]. *)
Definition psi (plane_strain : bool) (mu lmbda trC J : R) : R :=
  let lnJ := safe_lnJ J in
  let trC := if plane_strain then trC + 1 else trC in
  mu / 2 * trC - mu * lnJ + lmbda / 2 * (lnJ * lnJ).
(** [F = u_grad + I], [tr(F^T F)] and the determinant, in two and three dimensions. *)
Definition delta (i j : nat) : R := if Nat.eqb i j then 1 else 0.
Definition defgrad (H : nat -> nat -> R) (i j : nat) : R := H i j + delta i j.
Definition trFF (dim : nat) (F : nat -> nat -> R) : R := rs dim (fun i => rs dim (fun k => F k i * F k i)).
Definition det2 (F : nat -> nat -> R) : R := F 0%nat 0%nat * F 1%nat 1%nat - F 0%nat 1%nat * F 1%nat 0%nat.
Definition det3 (F : nat -> nat -> R) : R :=
  F 0%nat 0%nat * (F 1%nat 1%nat * F 2%nat 2%nat - F 1%nat 2%nat * F 2%nat 1%nat)
  - F 0%nat 1%nat * (F 1%nat 0%nat * F 2%nat 2%nat - F 1%nat 2%nat * F 2%nat 0%nat)
  + F 0%nat 2%nat * (F 1%nat 0%nat * F 2%nat 1%nat - F 1%nat 1%nat * F 2%nat 0%nat).
Definition energy_density (dim : nat) (plane_strain : bool) (H : nat -> nat -> R) (mu lmbda : R) : R :=
  let F := defgrad H in
  psi plane_strain mu lmbda (trFF dim F) (if Nat.eqb dim 2 then det2 F else det3 F).

(** tmc.py:161-185 [kernel]: data of one cell; [hess q a k l] are the second derivatives of shape
    function [a] at quadrature point [q]. *)
Record cdata := { cd_dim : nat; cd_nn : nat; cd_nq : nat; cd_hess : nat -> nat -> nat -> nat -> R; cd_JxW : nat -> R }.
Definition u_hess (d : cdata) (u : nat -> nat -> R) (q v k l : nat) : R := rs (cd_nn d) (fun a => u a v * cd_hess d q a k l).
Definition lapl_u (d : cdata) (u : nat -> nat -> R) (q v : nat) : R := rs (cd_dim d) (fun k => u_hess d u q v k k).
Definition shape_lapl (d : cdata) (q a : nat) : R := rs (cd_dim d) (fun k => cd_hess d q a k k).
Definition reg_kernel (d : cdata) (kr is_medium : R) (u : nat -> nat -> R) (a v : nat) : R :=
  let term1 q := rs (cd_dim d) (fun k => rs (cd_dim d) (fun l => u_hess d u q v k l * cd_hess d q a k l)) in
  let term2 q := lapl_u d u q v * shape_lapl d q a / INR (cd_dim d) in
  kr * is_medium * rs (cd_nq d) (fun q => (term1 q - term2 q) * cd_JxW d q).

(** tmc.py:248-268 [create]: the parameters it builds. *)
Definition create_plane_strain (dim : nat) (plane_strain : bool) : bool := if Nat.eqb dim 3 then false else plane_strain.
Definition kr_coeff (kr lmbda ref_length : R) : R := kr * lmbda * (ref_length * ref_length).
(** [np.where(is_medium, x * gamma0, x)]: any nonzero indicator counts. *)
Definition cell_modulus (gamma0 x is_medium : R) : R := if Req_EM_T is_medium 0 then x else x * gamma0.
