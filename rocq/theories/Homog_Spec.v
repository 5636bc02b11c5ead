(** What homogenization is about: linear elastic cells, periodic responses to macroscopic
    strains, and the effective stiffness. *)
From Verif Require Import Base Csr_Model Assembly_Model Dof_Model Kernel_Model Kernel_Spec Reduced_Spec Homog_Model Kernel_Props.

Section Spec.
  Variable K : CRing.
  Local Open Scope ring_K.
  Variables (dim nq : nat).
  Variable V : Type.

  (** The stress callback is linear: [sigma_id = C(y)_idke g_ke]. *)
  Definition linear_stress (tm : tensor_map K V) (C : V -> nat -> nat -> nat -> nat -> K) : Prop :=
    forall g y i d, i < dim -> d < dim ->
      get2 (tm g y) i d = Sum dim (fun k => Sum dim (fun e => C y i d k e * get2 g k e)).
  (** The stress is a symmetric tensor. *)
  Definition stress_symmetric (C : V -> nat -> nat -> nat -> nat -> K) : Prop :=
    forall y i d k e, i < dim -> d < dim -> k < dim -> e < dim -> C y i d k e = C y d i k e.
  (** Only the symmetric part of the gradient matters. *)
  Definition strain_symmetric (C : V -> nat -> nat -> nat -> nat -> K) : Prop :=
    forall y i d k e, i < dim -> d < dim -> k < dim -> e < dim -> C y i d k e = C y i d e k.
  (** Major symmetry. *)
  Definition major_symmetric (C : V -> nat -> nat -> nat -> nat -> K) : Prop :=
    forall y i d k e, i < dim -> d < dim -> k < dim -> e < dim -> C y i d k e = C y k e i d.

  (** [u] responds periodically to the displacement [um]: the fluctuation [u - um] agrees on
      periodic images ([col i = col j]) and the internal forces of every periodic class
      balance. *)
  Definition is_response {Inp FInp} (pb : problem K Inp FInp) (bs0 : nat) (col : nat -> nat) (um u : list K) : Prop :=
    (forall i j, i < pr_n pb -> j < pr_n pb -> col i = col j -> get u i - get um i = get u j - get um j) /\
    (forall i, i < pr_n pb -> class_sum (pr_n pb) col (col i) (get (get_res pb bs0 u)) = 0).

  (** [cases] are responses to the affine fields [x |-> E_k x] of the unit strains. *)
  Definition responses {Inp FInp} (half : K) (pb : problem K Inp FInp) (bs0 : nat) (col : nat -> nat)
      (points : list (list K)) (cases : list (list K * list K)) : Prop :=
    length cases = length (unit_strains half dim) /\
    forall k, k < length cases ->
      is_response pb bs0 col (macro_displacement points dim (nth k (unit_strains half dim) [])) (fst (nth k cases ([], []))).

  (** The geometry and numbers are sound: two or three dimensions, one displacement
      component per dimension, Jacobians inverted, shape functions summing to a constant,
      nonzero volume, [half] one half. *)
  Definition sound_cell (half : K) (kinv : K -> K) (det : list (list K) -> K) (inv : list (list K) -> list (list K)) (f : fe K) : Prop :=
    (dim = 2 \/ dim = 3)%nat /\ fe_vec f = dim /\ wf_fes [f] /\ unity K dim f /\
    (forall c q, c < length (fe_cells f) -> q < nq -> inverse_ok K dim inv f c q) /\
    total_volume dim nq det f * kinv (total_volume dim nq det f) = 1 /\ half + half = 1.

  (** The only term of the problem is the stress: no loads, no boundaries. *)
  Definition stress_only (ph : physics K V) (tm : tensor_map K V) : Prop :=
    ph_universal ph = None /\ ph_extra ph = None /\ ph_mass ph = None /\ ph_tensor ph = Some tm.

  (** Periodic fields have zero mean gradient. *)
  Definition periodic_gradients_vanish (det : list (list K) -> K) (inv : list (list K) -> list (list K)) (f : fe K)
      (n : nat) (col : nat -> nat) : Prop :=
    forall z : list K, (forall i j, i < n -> j < n -> col i = col j -> get z i = get z j) ->
    forall k d, k < dim -> d < dim ->
      Sum (length (fe_cells f)) (fun c => Sum nq (fun q => JxW dim det f c q * get2 (grad_at dim inv [f] 0 z c q) k d)) = 0.

  (** Every reduced unknown carries a single displacement component. *)
  Definition componentwise (vec n : nat) (col : nat -> nat) : Prop :=
    forall i j, i < n -> j < n -> col i = col j -> (i mod vec = j mod vec)%nat.
End Spec.
Arguments linear_stress {K} dim {V}. Arguments stress_symmetric {K} dim {V}. Arguments strain_symmetric {K} dim {V}.
Arguments major_symmetric {K} dim {V}. Arguments is_response {K Inp FInp}. Arguments responses {K} dim {Inp FInp}.
Arguments sound_cell {K}. Arguments stress_only {K V}. Arguments periodic_gradients_vanish {K}.
