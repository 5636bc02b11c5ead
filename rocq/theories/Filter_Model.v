(** Model of the design filters: feax/gene/filters.py.

    Floats are rationals.  Square roots, norms, exponentials and tanh are arbitrary
    functions; the properties a theorem needs of them are its hypotheses. *)
From Coq Require Import List Bool Arith ZArith QArith Qminmax Qround.
From Verif Require Import Base ZArr Grid_Model Graph_Model Oc_Model.
Import ListNotations.
Open Scope Q_scope.

(** ** create_sensitivity_filter -- filters.py:421-472 *)
Section Sens.
  Variable g : grid.
  Variable sq : Z -> Q.
  Variable rmin : Q.

  (** filters.py:442 *)
  Definition sens_r : Z := (Qceiling rmin - 1)%Z.
  (** filters.py:443-444; Python's range(-r, r + 1) *)
  Definition offs : list ijk :=
    flat_map (fun di => flat_map (fun dj => map (fun dk => (di, dj, dk)) (rangeZ (- sens_r) (sens_r + 1)))
                                 (rangeZ (- sens_r) (sens_r + 1))) (rangeZ (- sens_r) (sens_r + 1)).
  (** filters.py:445-446 *)
  Definition w0 (o : ijk) : Q := let '(di, dj, dk) := o in Qmax 0 (rmin - sq (di * di + dj * dj + dk * dk)%Z).
  Definition clipZ (v lo hi : Z) : Z := Z.min (Z.max v lo) hi.

  (** The body of the offset loop for one active cell -- filters.py:457-469.  The array
      operations are elementwise, so the accumulators num and Hs of the cell are computed
      on their own. *)
  Definition sens_step (active : list Z) (rho_pad dc_pad : list Q) (e : Z) (acc : Q * Q) (o : ijk) : Q * Q :=
    let w := w0 o in
    if Qle_bool w 0 then acc
    else
      let '(di, dj, dk) := o in
      let '(ex, ey, ez) := cell_ijk g e in
      let '(jx, jy, jz) := (ex + di, ey + dj, ez + dk)%Z in
      let inb := in_bounds g jx jy jz in
      let hs := snd acc + (if inb then w else 0) in
      let cell := cell_id g (clipZ jx 0 (nx g - 1)) (clipZ jy 0 (ny g - 1)) (clipZ jz 0 (nz g - 1)) in
      let na := length active in
      let pos := Nat.min (searchsortedZ active cell) (na - 1) in
      let hit := inb && Z.eqb (nth pos active 0%Z) cell in
      let idx := if hit then pos else na in
      (fst acc + w * nth idx rho_pad 0 * nth idx dc_pad 0, hs).

  (** filt -- filters.py:449-470 *)
  Definition sens_filter (active : list Z) (rho dc : list Q) : list Q :=
    map (fun er => let '(num, hs) := fold_left (sens_step active (rho ++ [0]) (dc ++ [0]) (fst er)) offs (0, 0) in
                   num / (hs * Qmax (1 # 1000) (snd er) + tiny)) (combine active rho).
End Sens.

(** ** The distance-based density filter -- filters.py:189-329 *)
Inductive weight_type := WCone | WGaussian | WConstant | WOther.

Section Density.
  (** onp.linalg.norm of a difference vector *)
  Variable norm : list Q -> Q.
  (** d |-> onp.exp(-(d / radius) ** 2) *)
  Variable gauss : Q -> Q.
  Variable radius : Q.

  (** filters.py:223-224 *)
  Definition diff (p q : list Q) : list Q := map (fun ab => fst ab - snd ab) (combine p q).
  (** filters.py:235-242; [None] is the ValueError *)
  Definition weight (wt : weight_type) (d : Q) : option Q :=
    match wt with
    | WCone => Some (Qmax 0 (radius - d))
    | WGaussian => Some (gauss d)
    | WConstant => Some 1
    | WOther => None
    end.

  (** COO entries of one node -- filters.py:227-247 *)
  Fixpoint sequence {A} (l : list (option A)) : option (list A) :=
    match l with
    | [] => Some []
    | x :: t => match x, sequence t with Some a, Some r => Some (a :: r) | _, _ => None end
    end.
  Definition row_entries (wt : weight_type) (dists : list Q) (i : nat) : option (list (nat * nat * Q)) :=
    let neighbors := filter (fun j => Qle_bool (nth j dists 0) radius) (seq 0 (length dists)) in
    sequence (map (fun j => option_map (fun w => (i, j, w)) (weight wt (nth j dists 0))) neighbors).

  (** One batch -- filters.py:217-247 *)
  Definition batch_entries (wt : weight_type) (points : list (list Q)) (batch_size start : nat) : option (list (nat * nat * Q)) :=
    let n := length points in
    let stop := Nat.min (start + batch_size) n in
    let batch_points := firstn (stop - start) (skipn start points) in
    let distances := map (fun p => map (fun q => norm (diff p q)) points) batch_points in
    option_map (@concat _) (sequence (map (fun local_i => row_entries wt (nth local_i distances []) (start + local_i)) (seq 0 (stop - start)))).

  (** range(0, num_nodes, batch_size), batch_size >= 1 -- filters.py:217 *)
  Definition starts (n batch_size : nat) : list nat := map (fun k => k * batch_size)%nat (seq 0 ((n + batch_size - 1) / batch_size)).

  (** _compute_density_filter_weights_sparse -- filters.py:189-262 *)
  Definition weight_matrix (wt : weight_type) (points : list (list Q)) (batch_size : nat) : option (list (nat * nat * Q)) :=
    option_map (@concat _) (sequence (map (batch_entries wt points batch_size) (starts (length points) batch_size))).

  (** Sparse matrix-vector product and row sums -- filters.py:254-260, 324 *)
  Definition matvec (coo : list (nat * nat * Q)) (rho : list Q) (i : nat) : Q :=
    sumQ (map (fun e => if Nat.eqb (fst (fst e)) i then snd e * nth (snd (fst e)) rho 0 else 0) coo).
  Definition row_sum (coo : list (nat * nat * Q)) (i : nat) : Q :=
    sumQ (map (fun e => if Nat.eqb (fst (fst e)) i then snd e else 0) coo).
  (** The 1e-12 of filters.py:326 *)
  Definition feps : Q := 1 # (10 ^ 12).
  (** create_density_filter -- filters.py:265-329 (batch_size is 500 there) *)
  Definition density_filter (wt : weight_type) (points : list (list Q)) (batch_size : nat) (rho : list Q) : option (list Q) :=
    option_map (fun coo => map (fun i => matvec coo rho i / (row_sum coo i + feps)) (seq 0 (length points)))
      (weight_matrix wt points batch_size).
End Density.

(** ** Projection and threshold -- filters.py:367-418 *)
(** heaviside_projection -- filters.py:367-391 *)
Definition heaviside (tanh : Q -> Q) (beta threshold : Q) (rho : list Q) : list Q :=
  map (fun r => (tanh (beta * (r - threshold)) + 1) / 2) rho.

(** np.sort *)
Fixpoint insertQ (x : Q) (l : list Q) : list Q :=
  match l with [] => [x] | y :: t => if Qle_bool x y then x :: l else y :: insertQ x t end.
Definition sortQ (l : list Q) : list Q := fold_right insertQ [] l.
(** np.percentile with linear interpolation, for a percentage q in [0, 100] *)
Definition percentile (rho : list Q) (q : Q) : Q :=
  let a := sortQ rho in
  let idx := q / 100 * inject_Z (Z.of_nat (length rho) - 1) in
  let low := Z.to_nat (Qfloor idx) in
  let high := Z.to_nat (Qceiling idx) in
  let hw := idx - inject_Z (Qfloor idx) in
  nth low a 0 * (1 - hw) + nth high a 0 * hw.
(** compute_volume_fraction_threshold -- filters.py:394-418 *)
Definition volume_threshold (rho : list Q) (target : Q) : Q := percentile rho ((1 - target) * 100).
