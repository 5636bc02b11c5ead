(** The discrete weak form, stated from the fields themselves: no element vectors, no
    scatter, no offsets other than the global DOF numbering of Dof_Spec. *)
From Verif Require Import Base Csr_Model Assembly_Model Dof_Model Dof_Spec Kernel_Model.

Section Spec.
  Variable K : CRing.
  Local Open Scope ring_K.
  Variables (dim nq nfq : nat).
  Variable det : list (list K) -> K.
  Variable inv : list (list K) -> list (list K).
  Variable norm : list K -> K.
  Variables (V W : Type).
  Local Notation fe := (fe K).
  Variable fes : list fe.

  (** Well-formed variables: all have the same number of cells, every cell of variable [f]
      has [fe_nn f] nodes, all of them existing. *)
  Definition wf_fes : Prop :=
    forall f, In f fes ->
      length (fe_cells f) = num_cells fes /\
      forall c, In c (fe_cells f) -> length c = fe_nn f /\ forall n, In n c -> n < length (fe_points f).
  (** Every selected face belongs to an existing cell and has its surface variables. *)
  Definition wf_bdata (b : bdata K W) : Prop :=
    length (bd_vars b) = length (bd_inds b) /\
    forall cg, In cg (bd_inds b) -> fst cg < num_cells fes.

  (** Value of component [k] of variable [i] of node [n] of cell [c] in a solution vector. *)
  Definition nodal (i : nat) (u : list K) (c n k : nat) : K :=
    get u (dof (layout_of fes) i (node_of (fe_at fes i) c n) k).

  (** The finite element field of variable [i] and its gradient at quadrature point [q] of
      cell [c], and the field at quadrature point [q] of face [g] of cell [c]. *)
  Definition field_at (i : nat) (u : list K) (c q : nat) : list K :=
    let f := fe_at fes i in
    tab (fe_vec f) (fun k => Sum (fe_nn f) (fun n => fe_sv f q n * nodal i u c n k)).
  Definition grad_at (i : nat) (u : list K) (c q : nat) : list (list K) :=
    let f := fe_at fes i in
    tab (fe_vec f) (fun k => tab dim (fun d =>
      Sum (fe_nn f) (fun n => shape_grad dim inv f c q n d * nodal i u c n k))).
  Definition face_field_at (i : nat) (u : list K) (c g q : nat) : list K :=
    let f := fe_at fes i in
    tab (fe_vec f) (fun k => Sum (fe_nn f) (fun n => fe_fsv f g q n * nodal i u c n k)).

  (** Inner products of component arrays. *)
  Definition dot1 (n : nat) (a b : list K) : K := Sum n (fun k => get a k * get b k).
  Definition dot2 (n m : nat) (a b : list (list K)) : K :=
    Sum n (fun k => Sum m (fun d => get2 a k d * get2 b k d)).

  (** Integral over all cells: sum of the quadrature contributions. *)
  Definition over_cells (g : nat -> nat -> K) : K :=
    Sum (num_cells fes) (fun c => Sum nq (fun q => g c q)).
  (** Integral over the faces of one boundary. *)
  Definition over_faces (b : bdata K W) (g : nat -> nat -> nat -> W -> K) : K :=
    sumf (fun p => Sum nfq (fun q => g (fst (fst p)) (snd (fst p)) q (snd p q)))
         (combine (bd_inds b) (bd_vars b)).

  (** [int m(u, grad u) . v + s(u, grad u) : grad v], summed over the variables. *)
  Definition weak_volume (wf : weak_form K V) (vars : nat -> nat -> V) (u v : list K) : K :=
    over_cells (fun c q =>
      let out := wf (tab (length fes) (fun i => field_at i u c q)) (tab (length fes) (fun i => grad_at i u c q))
                    (quad_point dim (fe_at fes 0) c q) (vars c q) in
      Sum (length fes) (fun i =>
        JxW dim det (fe_at fes i) c q *
        (dot1 (fe_vec (fe_at fes i)) (nth i (fst out) []) (field_at i v c q) +
         dot2 (fe_vec (fe_at fes i)) dim (nth i (snd out) []) (grad_at i v c q)))).

  (** [int t(u) . v] over one boundary, summed over the variables. *)
  Definition weak_surface (sw : surface_weak_form K W) (b : bdata K W) (u v : list K) : K :=
    over_faces b (fun c g q w =>
      let out := sw (tab (length fes) (fun i => face_field_at i u c g q))
                    (face_point dim (fe_at fes 0) c g q) w in
      Sum (length fes) (fun i =>
        nanson dim det inv norm (fe_at fes i) c g q *
        dot1 (fe_vec (fe_at fes i)) (nth i out []) (face_field_at i v c g q))).

  (** The single-variable terms. *)
  Definition tensor_volume (tm : tensor_map K V) (vars : nat -> nat -> V) (u v : list K) : K :=
    over_cells (fun c q =>
      JxW dim det (fe_at fes 0) c q *
      dot2 (fe_vec (fe_at fes 0)) dim (tm (grad_at 0 u c q) (vars c q)) (grad_at 0 v c q)).
  Definition mass_volume (mm : mass_map K V) (vars : nat -> nat -> V) (u v : list K) : K :=
    over_cells (fun c q =>
      JxW dim det (fe_at fes 0) c q *
      dot1 (fe_vec (fe_at fes 0))
        (mm (field_at 0 u c q) (quad_point dim (fe_at fes 0) c q) (vars c q)) (field_at 0 v c q)).
  Definition map_surface (sm : surface_map K W) (b : bdata K W) (u v : list K) : K :=
    over_faces b (fun c g q w =>
      nanson dim det inv norm (fe_at fes 0) c g q *
      dot1 (fe_vec (fe_at fes 0))
        (sm (face_field_at 0 u c g q) (face_point dim (fe_at fes 0) c g q) w) (face_field_at 0 v c g q)).

  (** Optional terms count zero when absent. *)
  Definition opt_term {A} (o : option A) (f : A -> K) : K := match o with Some a => f a | None => 0 end.

  (** Virtual work of a user-written element kernel: its entry [a] acts on the [a]-th DOF of
      the element (variable by variable, node by node, component by component). *)
  Definition kernel_work (k : vkernel K V) (vars : nat -> nat -> V) (u v : list K) : K :=
    Sum (num_cells fes) (fun c =>
      let d := cell_dofs (layout_of fes) (cells_of fes c) in
      let r := k (map (get u) d) (vinp_of dim det inv fes vars c) in
      Sum (length d) (fun a => get v (nth a d 0%nat) * get r a)).
  Definition face_kernel_work (k : skernel K W) (b : bdata K W) (u v : list K) : K :=
    sumf (fun p =>
      let d := cell_dofs (layout_of fes) (cells_of fes (fst (fst p))) in
      let r := k (map (get u) d) (finp_of dim det inv norm fes (snd p) (fst p)) in
      Sum (length d) (fun a => get v (nth a d 0%nat) * get r a)) (combine (bd_inds b) (bd_vars b)).

  (** The documented composition rules (docstrings of create_volume_kernel and
      create_surface_kernel). *)
  Definition volume_terms (ph : physics K V) (vars : nat -> nat -> V) (u v : list K) : K :=
    match ph_universal ph with
    | Some k => kernel_work k vars u v
    | None => if 1 <? length fes then opt_term (ph_weak ph) (fun wf => weak_volume wf vars u v)
              else opt_term (ph_mass ph) (fun mm => mass_volume mm vars u v) +
                   opt_term (match ph_tensor ph with Some t => Some t | None => ph_energy_grad ph end)
                            (fun tm => tensor_volume tm vars u v)
    end + opt_term (ph_extra ph) (fun k => kernel_work k vars u v).
  Definition surface_terms (b : bdata K W) (u v : list K) : K :=
    let bp := bd_ph b in
    if 1 <? length fes then
      match bp_universal bp with
      | Some k => face_kernel_work k b u v
      | None => opt_term (bp_weak bp) (fun sw => weak_surface sw b u v)
      end
    else opt_term (bp_map bp) (fun sm => map_surface sm b u v) +
         opt_term (bp_universal bp) (fun k => face_kernel_work k b u v).
  (** User-written kernels return one number per element DOF. *)
  Definition kernel_shapes (ph : physics K V) (bnd : list (bdata K W)) : Prop :=
    (forall k, ph_universal ph = Some k \/ ph_extra ph = Some k -> forall u x, length (k u x) = num_local fes) /\
    (forall b k, In b bnd -> bp_universal (bd_ph b) = Some k -> forall u x, length (k u x) = num_local fes).

  (** [v . R]: the virtual work of a residual vector [R]. *)
  Definition virtual_work (n : nat) (v R : list K) : K := Sum n (fun i => get v i * get R i).
End Spec.
Arguments wf_fes {K}. Arguments wf_bdata {K W}. Arguments nodal {K}. Arguments field_at {K}. Arguments grad_at {K}.
Arguments face_field_at {K}. Arguments dot1 {K}. Arguments dot2 {K}. Arguments over_cells {K}. Arguments over_faces {K} nfq {W}.
Arguments weak_volume {K} dim nq det inv {V}. Arguments weak_surface {K} dim nfq det inv norm {W}.
Arguments tensor_volume {K} dim nq det inv {V}. Arguments mass_volume {K} dim nq det {V}.
Arguments map_surface {K} dim nfq det inv norm {W}. Arguments opt_term {K A}. Arguments virtual_work {K}.
Arguments kernel_work {K} dim det inv {V}. Arguments face_kernel_work {K} dim det inv norm {W}.
Arguments volume_terms {K} dim nq det inv {V}. Arguments surface_terms {K} dim nfq det inv norm {W}.
Arguments kernel_shapes {K V W}.
