(** Model of the narrow-band optimisation loop: feax/gene/narrowband.py.

    Floats are rationals.  `be ** damping` is an arbitrary function [pw] of the
    (non-negative) base: the exponent is fixed during a call.  The multigrid solve, the
    sensitivity filter and the load are arbitrary functions. *)
From Coq Require Import List Bool Arith ZArith QArith Qminmax Qround.
From Verif Require Import Base ZArr Grid_Model.
Import ListNotations.
Open Scope Q_scope.

Definition Qltb (x y : Q) : bool := negb (Qle_bool y x).
(** The 1e-30 of narrowband.py:57,59. *)
Definition tiny : Q := 1 # (10 ^ 30).
(** numpy clip(a, lo, hi) = minimum(maximum(a, lo), hi). *)
Definition clip (a lo hi : Q) : Q := Qmin (Qmax a lo) hi.

Section Oc.
  Variable pw : Q -> Q.
  Variables (move xmin xmax bisect_tol : Q).

  (** One entry of the update -- narrowband.py:59-61 *)
  Definition oc_entry (lam : Q) (p : Q * Q * Q) : Q :=
    let '(rho, dc, dv) := p in
    let be := Qmax 0 ((- dc) / (dv * lam + tiny)) in
    clip (clip (rho * pw be) (rho - move) (rho + move)) xmin xmax.
  Definition candidate (ps : list (Q * Q * Q)) (lam : Q) : list Q := map (oc_entry lam) ps.
  (** (xnew * dv).sum() -- narrowband.py:62 *)
  Definition volume (ps : list (Q * Q * Q)) (x : list Q) : Q :=
    fold_right Qplus 0 (map (fun px => snd (fst px) * snd px) (combine ps x)).

  (** The bisection loop -- narrowband.py:57-66; [None] when the fuel runs out.  The
      final bracket is returned for the statements only. *)
  Fixpoint bisect (fuel : nat) (ps : list (Q * Q * Q)) (target l1 l2 : Q) (xnew : list Q) : option (list Q * (Q * Q)) :=
    if Qltb bisect_tol ((l2 - l1) / (l1 + l2 + tiny)) then
      match fuel with
      | O => None
      | S f =>
          let lmid := (1 # 2) * (l1 + l2) in
          let x := candidate ps lmid in
          if Qltb target (volume ps x) then bisect f ps target lmid l2 x
          else bisect f ps target l1 lmid x
      end
    else Some (xnew, (l1, l2)).

  (** oc_update -- narrowband.py:35-66.  rho, dc and dv have equal length (a scalar dv is
      broadcast by the caller of the model). *)
  Definition oc_points (rho dc dv : list Q) : list (Q * Q * Q) := combine (combine rho dc) dv.
  Definition oc_update (fuel : nat) (l2_init volfrac : Q) (rho dc dv : list Q) : option (list Q) :=
    let ps := oc_points rho dc dv in
    let target := volfrac * fold_right Qplus 0 dv in
    option_map fst (bisect fuel ps target 0 l2_init rho).
End Oc.

(** ** Binary dilation of cell masks (scipy.ndimage.binary_dilation, default structure: the
    six face neighbours; cells outside the grid count as False) *)
Definition mask := Z -> bool.
Section Band.
  Variable g : grid.
  Definition at_ijk (m : mask) (x y z : Z) : bool := in_bounds g x y z && m (cell_id g x y z).
  Definition dilate1 (m : mask) : mask := fun e =>
    let '(x, y, z) := cell_ijk g e in
    m e || at_ijk m (x - 1) y z || at_ijk m (x + 1) y z || at_ijk m x (y - 1) z || at_ijk m x (y + 1) z
        || at_ijk m x y (z - 1) || at_ijk m x y (z + 1).
  (** iterations=n; for n < 1 scipy repeats until nothing changes, which num_cells rounds
      reach. *)
  Definition binary_dilation (m : mask) (iterations : Z) : mask :=
    Nat.iter (Z.to_nat (if Z.ltb iterations 1 then num_cells g else iterations)) dilate1 m.

  (** narrowband.py:125-131: the active cells of iteration it. *)
  Definition wanted (keep : mask) (grid_update_start it margin : Z) (threshold : Q) (rho : list Q) : mask :=
    if Z.ltb it grid_update_start then fun _ => true
    else fun e => binary_dilation (fun e => Qltb threshold (nth (Z.to_nat e) rho 0)) margin e || keep e.
  Definition active_cells (w : mask) : list Z := filter w (arangeZ (num_cells g)).
End Band.

(** ** run_narrowband_oc -- narrowband.py:73-159 *)
Section Loop.
  Variable pw : Q -> Q.
  Variable g : grid.
  Variable keep : mask.
  Variables (grid_update_start margin : Z) (threshold volfrac move xmin : Q).
  Variable jit_after : option Z.
  (** solver built by cmg.build / load_fn / create_solver for an active set and a jit
      flag, applied to rho_a, followed by cmg.compliance_and_dc: compliance and dc_a. *)
  Variable solve : list Z -> bool -> list Q -> Q * list Q.
  (** sensitivity_filter(active_cells, rho_a, dc_a) *)
  Variable sfilter : list Z -> list Q -> list Q -> list Q.
  Variable fuel : nat.

  Definition gatherZ (rho : list Q) (active : list Z) : list Q := map (fun e => nth (Z.to_nat e) rho 0) active.
  (** dc_f = zeros(NC); dc_f[active_cells] = dc_f_a -- narrowband.py:150 *)
  Definition scatterZ (active : list Z) (vals : list Q) : list Q :=
    fold_left (fun l av => upd l (Z.to_nat (fst av)) (snd av)) (combine active vals) (repeat 0 (Z.to_nat (num_cells g))).

  (** What one iteration does: the active cells, the active set and jit flag the solver in
      use was built for, whether it was built now, the densities it is applied to, the
      compliance, and the new density. *)
  Record nb_event := NbEvent { ev_it : Z; ev_active : list Z; ev_built : list Z; ev_jit : bool; ev_rebuilt : bool;
    ev_rho : list Q; ev_compliance : Q; ev_new : list Q }.
  (** prev_active with the solver (None before the first iteration), jit_on and rho. *)
  Record nb_state := NbState { nb_prev : option (list Z * list Z); nb_jit : bool; nb_rho : list Q }.

  Definition use_jit (it : Z) : bool := match jit_after with None => false | Some j => Z.leb j it end.
  Fixpoint eqb_listZ (a b : list Z) : bool :=
    match a, b with
    | [], [] => true
    | x :: a', y :: b' => Z.eqb x y && eqb_listZ a' b'
    | _, _ => false
    end.

  (** Loop body -- narrowband.py:125-154 *)
  Definition nb_step (s : nb_state) (it : Z) : option (nb_state * nb_event) :=
    let active := active_cells g (wanted g keep grid_update_start it margin threshold (nb_rho s)) in
    let changed := match nb_prev s with None => true | Some (p, _) => negb (eqb_listZ active p) end in
    let rebuild := changed || (use_jit it && negb (nb_jit s)) in
    let built := if rebuild then active else match nb_prev s with Some (_, b) => b | None => [] end in
    let jit_on := if rebuild then use_jit it else nb_jit s in
    let rho_a := gatherZ (nb_rho s) active in
    let cd := solve built jit_on rho_a in
    let dc_f := scatterZ active (sfilter active rho_a (snd cd)) in
    match oc_update pw move xmin 1 (1 # 10000) fuel (inject_Z (10 ^ 9)) volfrac (nb_rho s) dc_f
            (repeat 1 (Z.to_nat (num_cells g))) with
    | None => None
    | Some rho' => Some (NbState (Some (active, built)) jit_on rho',
                         NbEvent it active built jit_on rebuild rho_a (fst cd) rho')
    end.

  (** for it in range(n_iter) *)
  Fixpoint nb_loop (n : nat) (it : Z) (s : nb_state) : option (nb_state * list nb_event) :=
    match n with
    | O => Some (s, [])
    | S n' =>
        match nb_step s it with
        | None => None
        | Some (s', e) => match nb_loop n' (it + 1) s' with None => None | Some (s'', es) => Some (s'', e :: es) end
        end
    end.

  Definition run_nb (n_iter : nat) (x_init : option (list Q)) : option (list Q * list nb_event) :=
    let rho := match x_init with None => repeat volfrac (Z.to_nat (num_cells g)) | Some x => x end in
    option_map (fun r => (nb_rho (fst r), snd r)) (nb_loop n_iter 0 (NbState None false rho)).
End Loop.

(** ** _res_ladder -- narrowband.py:166-178 *)
(** Python round: to nearest, ties to even. *)
Definition py_round (q : Q) : Z :=
  let f := Qfloor q in
  let r := q - inject_Z f in
  if Qltb r (1 # 2) then f else if Qltb (1 # 2) r then (f + 1)%Z else if Z.even f then f else (f + 1)%Z.
Definition coarsen (factor : Q) (floor : Z) (d : list Z) : list Z :=
  map (fun x => Z.max floor (py_round (inject_Z x / factor))) d.
Fixpoint ladder (k : nat) (factor : Q) (floor : Z) (lad : list (list Z)) : list (list Z) :=
  match k with
  | O => lad
  | S k' =>
      let coarse := coarsen factor floor (hd [] lad) in
      if eqb_listZ coarse (hd [] lad) then lad else ladder k' factor floor (coarse :: lad)
  end.
Definition res_ladder (dims : list Z) (n_levels : Z) (factor : Q) (floor : Z) : list (list Z) :=
  ladder (Z.to_nat (n_levels - 1)) factor floor [dims].

(** ** run_narrowband_multires -- narrowband.py:228-256: per level the dimensions, whether
    it is seeded from the previous level, grid_update_start and the iteration count. *)
Record plan := Plan { pl_dims : list Z; pl_seeded : bool; pl_gus : Z; pl_iters : Z; pl_offset : Z }.
Fixpoint plan_levels (lvl : nat) (offset gus n_iter coarse_iter : Z) (lad : list (list Z)) : list plan :=
  match lad with
  | [] => []
  | d :: t =>
      let finest := match t with [] => true | _ => false end in
      let p := match lvl with
               | O => Plan d false gus coarse_iter offset
               | _ => Plan d true 0 (if finest then n_iter else coarse_iter) offset
               end in
      p :: plan_levels (S lvl) (offset + pl_iters p)%Z gus n_iter coarse_iter t
  end.
Definition multires_plan (dims : list Z) (n_levels n_iter : Z) (coarse_iter : option Z) (gus : Z) (factor : Q) (floor : Z) : list plan :=
  let ci := match coarse_iter with None => Z.max 10 (n_iter / 2) | Some c => c end in
  plan_levels 0 0 gus n_iter ci (res_ladder dims n_levels factor floor).
