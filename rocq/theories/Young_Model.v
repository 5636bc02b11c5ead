(** Model of the directional Young's modulus. Source: /repo/feax/flat/utils.py:9-49.
    The compliance matrix [S] (line 22, [np.linalg.inv(C)]) is an input here; dividing by a
    factor of 2 is multiplying by [half]; the reciprocal of line 49 is [kinv]. *)
From Verif Require Import Base Kernel_Model.

Section Young.
  Variable K : CRing.
  Local Open Scope ring_K.
  Variables (half : K) (kinv : K -> K).

  (** flat/utils.py:26. *)
  Definition voigt_map : list (nat * nat) := [(0, 0); (1, 1); (2, 2); (1, 2); (0, 2); (0, 1)]%nat.
  (** A (3,3,3,3) array and [.at[i, j, k, l].set(v)]. *)
  Definition tensor4 := nat -> nat -> nat -> nat -> K.
  Definition set4 (T : tensor4) (i j k l : nat) (v : K) : tensor4 := fun a b c d =>
    if ((a =? i) && (b =? j) && (c =? k) && (d =? l))%nat then v else T a b c d.
  (** flat/utils.py:30-43: one pass of the loop body; [i > 2] and [j > 2] are shear rows. *)
  Definition tensor_step (S : list (list K)) (T : tensor4) (ij : nat * nat) : tensor4 :=
    let (i, j) := ij in
    let (p, q) := nth i voigt_map (0, 0)%nat in
    let (r, s) := nth j voigt_map (0, 0)%nat in
    let v := get2 S i j * (if (2 <? i)%nat then half else 1) * (if (2 <? j)%nat then half else 1) in
    let T := set4 T p q r s v in
    let T := if (p =? q)%nat then T else set4 T q p r s v in
    let T := if (r =? s)%nat then T else set4 T p q s r v in
    if ((p =? q) || (r =? s))%nat then T else set4 T q p s r v.
  (** flat/utils.py:25-43: the double loop over [range(6)]. *)
  Definition compliance_tensor (S : list (list K)) : tensor4 :=
    fold_left (tensor_step S) (list_prod (seq 0 6) (seq 0 6)) (fun _ _ _ _ => 0).
  (** flat/utils.py:45-48: the two einsums. *)
  Definition directional_compliance (S : list (list K)) (n : list K) : K :=
    let T := compliance_tensor S in
    let Sn i k := Sum 3 (fun j => Sum 3 (fun l => T i j k l * get n j * get n l)) in
    Sum 3 (fun i => Sum 3 (fun j => get n i * Sn i j * get n j)).
  (** flat/utils.py:9-49 [compute_directional_youngs_modulus]. *)
  Definition youngs_modulus (S : list (list K)) (n : list K) : K := kinv (directional_compliance S n).
  (** flat/utils.py:77-82: the directions of the sphere, one row per [(phi, theta)] pair of the
      [meshgrid] ([theta] fastest), and the modulus in each. [snth], [csth], [snph], [csph] are the
      sines and cosines of the two [linspace] grids. *)
  Variables (snth csth snph csph : nat -> K).
  Definition sphere_dirs (nth_ nph : nat) : list (list K) :=
    map (fun ij => [snth (snd ij) * csph (fst ij); snth (snd ij) * snph (fst ij); csth (snd ij)])
      (list_prod (seq 0 nph) (seq 0 nth_)).
  Definition sphere_moduli (S : list (list K)) (nth_ nph : nat) : list K :=
    map (youngs_modulus S) (sphere_dirs nth_ nph).
End Young.
(** flat/utils.py:104-112: the quad cells of the sphere surface. *)
Definition sphere_cells (nth_ nph : nat) : list (list nat) :=
  flat_map (fun i => map (fun j =>
    [i * nth_ + j; i * nth_ + (j + 1); (i + 1) * nth_ + (j + 1); (i + 1) * nth_ + j])
    (seq 0 (nth_ - 1))) (seq 0 (nph - 1)).
Arguments compliance_tensor {K}. Arguments directional_compliance {K}. Arguments youngs_modulus {K}.
Arguments sphere_dirs {K}. Arguments sphere_moduli {K}.
