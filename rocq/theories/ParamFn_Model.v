(** Model of the parameter arrays built from a function of the position. Source: /repo/feax/traced_params.py and /repo/feax/fe.py.
    The function is any function of a coordinate list; rounding is not modelled. The arrays then reach the kernels as in Params_Model. *)
From Coq Require Import ZArith Bool List Arith.
From Verif Require Import Base Dof_Model Params_Model.
Import ListNotations.

Section Fields.
  Variable K : CRing.
  Local Open Scope ring_K.
  Variable dim : nat.
  (** [1 / n], used by the mean over the nodes of a cell. *)
  Variable ninv : nat -> K.

  (** [points[cell[a], k]]. *)
  Definition corner (pts : list (list K)) (cell : list nat) (a k : nat) : K := get (nth (nth a cell 0%nat) pts []) k.
  (** fe.py:224-239 [get_physical_quad_points], quadrature point [q] of cell [c]; problem.py:277 takes variable 0. *)
  Definition quad_position (f : fe K) (pts : list (list K)) (c q : nat) : list K :=
    map (fun k => sumf (fun a => get (nth q (f_shape K f) []) a * corner pts (nth c (f_cells K f) []) a k) (seq 0 (f_npe K f))) (seq 0 dim).
  (** traced_params.py:301: [np.mean(points[cell], axis=0)]. *)
  Definition mean_position (pts : list (list K)) (cell : list nat) : list K :=
    map (fun k => ninv (length cell) * sumf (fun a => corner pts cell a k) (seq 0 (length cell))) (seq 0 dim).

  (** traced_params.py:235-267 [create_node_var_from_fn]; [pts] are the points of the chosen variable. *)
  Definition node_var_from_fn (pts : list (list K)) (fn : list K -> K) : arr K := A1 K (map fn pts).
  (** traced_params.py:270-302 [create_cell_var_from_fn]; [f] is the chosen variable and [pts] its points. *)
  Definition cell_var_from_fn (f : fe K) (pts : list (list K)) (fn : list K -> K) : arr K :=
    A1 K (map (fun cell => fn (mean_position pts cell)) (f_cells K f)).
  (** traced_params.py:305-340 [create_spatially_varying_volume_var]; the variable index is not read: the points are those of variable 0. *)
  Definition volume_var_from_fn (P : problem K) (pts0 : list (list K)) (fn : list K -> K) : arr K :=
    A2 K (num_quads K P) (map (fun c => map (fun q => fn (quad_position (fe_at K P 0) pts0 c q)) (seq 0 (num_quads K P))) (seq 0 (p_ncells K P))).
  (** fe.py:241-264 [get_physical_surface_quad_points] for faces [(cell, face)], face shape values [fsv face quad node]. *)
  Definition face_position (f : fe K) (fsv : nat -> nat -> nat -> K) (pts : list (list K)) (b : nat * nat) (q : nat) : list K :=
    map (fun k => sumf (fun a => fsv (snd b) q a * corner pts (nth (fst b) (f_cells K f) []) a k) (seq 0 (f_npe K f))) (seq 0 dim).
  (** traced_params.py:343-376 [create_spatially_varying_surface_var]; [bnd] are the faces of the chosen surface, [nfq] the quadrature points of a face. *)
  Definition surface_var_from_fn (P : problem K) (fsv : nat -> nat -> nat -> K) (nfq : nat) (pts0 : list (list K)) (bnd : list (nat * nat)) (fn : list K -> K) : list (list K) :=
    map (fun b => map (fun q => fn (face_position (fe_at K P 0) fsv pts0 b q)) (seq 0 nfq)) bnd.
  (** traced_params.py:204-232 [create_uniform_surface_var]. *)
  Definition uniform_surface_var (nfq : nat) (bnd : list (nat * nat)) (x : K) : list (list K) := repeat (repeat x nfq) (length bnd).
End Fields.
