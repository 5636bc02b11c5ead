(** Response functions for optimization (feax/gene/responses.py). *)
From Coq Require Import Reals.
From Verif Require Import Base Csr_Model Assembly_Model Dof_Model Kernel_Model.

Section Compliance.
  Variable K : CRing.
  Local Open Scope ring_K.
  Variables (dim nfq : nat).
  Variable det : list (list K) -> K.
  Variable inv : list (list K) -> list (list K).
  Variable norm : list K -> K.
  Variable W : Type.

  (** responses.py:76-84 (and 163-171): displacement of the face nodes from the first block of the
      solution vector, interpolated to face quadrature point [q]. *)
  Definition u_face (f : fe K) (sol : list K) (c g q : nat) : list K :=
    tab (fe_vec f) (fun k => Sum (fe_nn f) (fun n => fe_fsv f g q n * get sol (node_of f c n * fe_vec f + k))).
  (** responses.py:52, 137: [surface_maps[i] if i < len(surface_maps) else zeros]; [bp_map] is
      [None] for a surface index past the end of the list. *)
  Definition surface_fn (f : fe K) (b : bdata K W) : surface_map K W :=
    match bp_map (bd_ph b) with Some sm => sm | None => fun u _ _ => map (fun _ => 0) u end.
  (** responses.py:86-97 (and 173-184): contribution of one surface; [vars] are the surface
      variables per face and quadrature point. *)
  Definition surface_compliance (f : fe K) (b : bdata K W) (vars : list (nat -> W)) (sol : list K) : K :=
    sumf (fun p =>
      let c := fst (fst p) in let g := snd (fst p) in
      Sum nfq (fun q =>
        let u := u_face f sol c g q in
        let t := surface_fn f b u (face_point dim f c g q) (snd p q) in
        Sum (fe_vec f) (fun k => (0 - get t k) * get u k * nanson dim det inv norm f c g q)))
      (combine (bd_inds b) vars).
  (** responses.py:104-189 [create_dynamic_compliance_fn]: [zip(surface_data, surface_vars)]. *)
  Definition dynamic_compliance (fes : list (fe K)) (bnd : list (bdata K W)) (sol : list K)
      (surface_vars : list (list (nat -> W))) : K :=
    sumf (fun p => surface_compliance (fe_at fes 0) (fst p) (snd p) sol) (combine bnd surface_vars).

  (** responses.py:33-45: the load parameters of [create_compliance_fn]. *)
  Inductive load_params := LNone | LScalar (w : W) | LList (l : list W).
  Variable one : W.
  Definition resolve_params (p : load_params) (num_surfaces : nat) : option (list W) :=
    match p with
    | LNone => Some (repeat one num_surfaces)
    | LScalar w => Some (repeat w num_surfaces)
    | LList l => if Nat.eqb (length l) num_surfaces then Some l else None
    end.
  (** responses.py:10-101 [create_compliance_fn]; [None] is the ValueError. Without surfaces the
      parameters are not looked at. *)
  Definition compliance (fes : list (fe K)) (bnd : list (bdata K W)) (p : load_params) : option (list K -> K) :=
    if Nat.eqb (length bnd) 0 then Some (fun _ => 0) else
    match resolve_params p (length bnd) with
    | None => None
    | Some ws => Some (fun sol =>
        sumf (fun bw => surface_compliance (fe_at fes 0) (fst bw) (repeat (fun _ => snd bw) (length (bd_inds (fst bw)))) sol)
          (combine bnd ws))
    end.
End Compliance.
Arguments u_face {K}. Arguments surface_fn {K W}. Arguments surface_compliance {K} dim nfq det inv norm {W}.
Arguments dynamic_compliance {K} dim nfq det inv norm {W}. Arguments resolve_params {W}.
Arguments compliance {K} dim nfq det inv norm {W}.
Arguments LNone {W}. Arguments LScalar {W}. Arguments LList {W}.

(** ** Volume fraction (responses.py:192-254 [create_volume_fn]), over the real numbers *)
Section Volume.
  Local Open Scope R_scope.
  (** The integration data the function closes over. *)
  Record vdata := { vd_nodes : nat; vd_cells : nat; vd_quads : nat; vd_nn : nat;
                    vd_cell : nat -> nat -> nat; vd_sv : nat -> nat -> R; vd_JxW : nat -> nat -> R }.
  Definition RSum (n : nat) (f : nat -> R) : R := fold_right Rplus 0 (map f (seq 0 n)).
  Definition domain_volume (d : vdata) : R := RSum (vd_cells d) (fun c => RSum (vd_quads d) (fun q => vd_JxW d c q)).
  Definition integrate (d : vdata) (rho : nat -> nat -> R) : R :=
    RSum (vd_cells d) (fun c => RSum (vd_quads d) (fun q => rho c q * vd_JxW d c q)).
  (** [rho] is the ravelled input; [None] is the reshape error. *)
  Definition volume_fn (d : vdata) (rho : list R) : option R :=
    if Nat.eqb (length rho) (vd_nodes d) then
      Some (integrate d (fun c q => RSum (vd_nn d) (fun n => vd_sv d q n * nth (vd_cell d c n) rho 0)) / domain_volume d)
    else if Nat.eqb (length rho) (vd_cells d) then
      Some (integrate d (fun c q => nth c rho 0) / domain_volume d)
    else if Nat.eqb (length rho) (vd_cells d * vd_quads d) then
      Some (integrate d (fun c q => nth (c * vd_quads d + q) rho 0) / domain_volume d)
    else None.
End Volume.
