(** What assembly is supposed to compute, stated element by element. *)
From Verif Require Import Base Csr_Model Assembly_Model.
Set Implicit Arguments.

Section Spec.
  Variable K : CRing.
  Local Open Scope ring_K.
  Variables (Inp FInp : Type).

  (** A well-formed problem: every cell has [nd] DOFs below [n]; every face
      belongs to an existing cell; kernels return a residual with [nd] entries and
      an [nd] x [nd] tangent (row-major). *)
  Record wf_problem (pb : problem K Inp FInp) : Prop := {
    w_cells : forall d, In d (pr_cells pb) -> length d = pr_nd pb;
    w_dofs : forall d x, In d (pr_cells pb) -> In x d -> x < pr_n pb;
    w_inp : length (pr_inp pb) = length (pr_cells pb);
    w_kern : forall u x, length u = pr_nd pb ->
               length (fst (pr_kern pb u x)) = pr_nd pb /\
               length (snd (pr_kern pb u x)) = (pr_nd pb * pr_nd pb)%nat;
    w_bcells : forall b c, In b (pr_bnd pb) -> In c (b_cells b) -> c < length (pr_cells pb);
    w_binp : forall b, In b (pr_bnd pb) -> length (b_inp b) = length (b_cells b);
    w_bkern : forall b u x, In b (pr_bnd pb) -> length u = pr_nd pb ->
               length (fst (b_kern b u x)) = pr_nd pb /\
               length (snd (b_kern b u x)) = (pr_nd pb * pr_nd pb)%nat
  }.

  (** What one element with DOFs [d] and local residual [r] adds to DOF [i]. *)
  Definition elem_res (nd : nat) (d : list nat) (r : list K) (i : nat) : K :=
    sumf (fun a => if nth a d 0%nat =? i then get r a else 0) (seq 0 nd).

  (** What one element with DOFs [d] and local tangent [m] adds to entry (i, j). *)
  Definition elem_jac (nd : nat) (d : list nat) (m : list K) (i j : nat) : K :=
    sumf (fun a => sumf (fun b =>
            if (nth a d 0%nat =? i) && (nth b d 0%nat =? j) then get m (a * nd + b)%nat else 0)
          (seq 0 nd)) (seq 0 nd).

  (** The element's own solution values. *)
  Definition local_sol (sol : list K) (d : list nat) : list K := map (get sol) d.

  (** The global residual: all cells, then all faces of all boundaries. *)
  Definition spec_res (pb : problem K Inp FInp) (sol : list K) (i : nat) : K :=
    sumf (fun p => elem_res (pr_nd pb) (fst p)
                     (fst (pr_kern pb (local_sol sol (fst p)) (snd p))) i)
         (combine (pr_cells pb) (pr_inp pb)) +
    sumf (fun b => sumf (fun q =>
              let d := nth (fst q) (pr_cells pb) [] in
              elem_res (pr_nd pb) d (fst (b_kern b (local_sol sol d) (snd q))) i)
            (combine (b_cells b) (b_inp b)))
         (pr_bnd pb).

  Definition spec_vol_jac (pb : problem K Inp FInp) (sol : list K) (i j : nat) : K :=
    sumf (fun p => elem_jac (pr_nd pb) (fst p)
                     (snd (pr_kern pb (local_sol sol (fst p)) (snd p))) i j)
         (combine (pr_cells pb) (pr_inp pb)).

  Definition spec_face_jac (pb : problem K Inp FInp) (sol : list K) (i j : nat) : K :=
    sumf (fun b => sumf (fun q =>
              let d := nth (fst q) (pr_cells pb) [] in
              elem_jac (pr_nd pb) d (snd (b_kern b (local_sol sol d) (snd q))) i j)
            (combine (b_cells b) (b_inp b)))
         (pr_bnd pb).

  (** The global tangent. *)
  Definition spec_jac (pb : problem K Inp FInp) (sol : list K) (i j : nat) : K :=
    spec_vol_jac pb sol i j + spec_face_jac pb sol i j.
End Spec.
Arguments elem_res {K} nd d r i.
Arguments elem_jac {K} nd d m i j.
Arguments local_sol {K} sol d.
