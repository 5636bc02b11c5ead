(** The GPU buckling solver of /repo/feax/solvers/eigen.py:370-572 ([solver="cudss"]): Arnoldi iteration on
    T = -K^-1 Kg with two Gram-Schmidt passes, Ritz pairs, normalisation and residual check; the structure captured on the
    first call; and the index cache of the host backends. Over the real numbers: rounding and complex pairs are not modelled. *)
From Coq Require Import Reals List Arith Bool.
From Verif Require Import Tmc_Model Eigen_Model.
Import ListNotations.
Open Scope R_scope.

(** [jnp.linalg.norm] *)
Definition vnorm (n : nat) (x : vec) : R := sqrt (dotp n x x).
(** eigen.py:514-523 [step]: one column. [V] holds the basis as rows 0..m (rows not yet computed are zero), [H] is (m+1) x m;
    [A] is the matrix of [T_apply]; [eps] stands for 1e-30. *)
Definition arnoldi_step (n m : nat) (A : mat) (eps : R) (st : (nat -> vec) * mat) (j : nat) : (nat -> vec) * mat :=
  let '(V, H) := st in
  let w := mv n A (V j) in
  let h1 := fun k => dotp n (V k) w in
  let w1 := fun i => w i - rs (S m) (fun k => h1 k * V k i) in
  let h2 := fun k => dotp n (V k) w1 in
  let w2 := fun i => w1 i - rs (S m) (fun k => h2 k * V k i) in
  let beta := vnorm n w2 in
  let s := if Rlt_dec eps beta then 1 / beta else 0 in
  ((fun r => if r =? S j then (fun i => s * w2 i) else V r),
   (fun r c => if c =? j then (if r =? S j then beta else h1 r + h2 r) else H r c)).
(** eigen.py:511-512: the first row is the normalised start vector. *)
Definition arnoldi_start (n : nat) (v0 : vec) : (nat -> vec) * mat :=
  ((fun r => if r =? 0 then (fun i => v0 i / vnorm n v0) else fun _ => 0), fun _ _ => 0).
(** eigen.py:525: the scan over the columns. *)
Definition arnoldi (n m : nat) (A : mat) (eps : R) (v0 : vec) : (nat -> vec) * mat :=
  fold_left (arnoldi_step n m A eps) (seq 0 m) (arnoldi_start n v0).

(** eigen.py:410-417: the size of the Krylov space; None is [BucklingConvergenceError]. *)
Definition krylov_size (nf num_modes num_matvecs : nat) : option nat :=
  let m := Nat.min nf (Nat.max num_matvecs (2 * num_modes + 10)) in if m <? 2 then None else Some m.

(** eigen.py:463-484 [_host_ritz]: [eig] is the list of real eigenpairs (mu, y) of the square part of [H] that NumPy returns
    (complex ones are dropped by [real_pair]); [tiny] stands for 1e-12. None is [BucklingConvergenceError]. *)
Definition host_ritz (mo : nat) (tiny : R) (conv_tol : option R) (eig : list pair) : option (list pair) :=
  match select mo (keep (sparse_factor tiny) eig), conv_tol with
  | [], Some _ => None
  | l, _ => Some l
  end.
(** eigen.py:483, 535: the Ritz vector of normalised coefficients. *)
Definition ritz_vec (m : nat) (eps : R) (V : nat -> vec) (y : vec) : vec :=
  fun i => rs m (fun c => y c / (vnorm m y + eps) * V c i).
(** eigen.py:537-539: scale to unit K-norm; [floor] stands for 1e-300. *)
Definition k_scale (n : nat) (Kf : mat) (floor : R) (x : vec) : R :=
  let e := dotp n x (mv n Kf x) in if Rlt_dec 0 e then 1 / sqrt (Rabs e + floor) else 0.
(** eigen.py:541-543: the residual of the fundamental mode. *)
Definition resid0 (n : nat) (A : mat) (eps mu : R) (x : vec) : R :=
  let x0 := fun i => x i / (vnorm n x + eps) in vnorm n (fun i => mv n A x0 i - mu * x0 i).
(** eigen.py:498-548 [_forward] after the restriction to the free degrees of freedom: the factors, padded with infinity, and
    the normalised modes, padded with zero. With no mode found the residual is that of the zero vector, hence zero. *)
Definition gpu_forward (n m mo : nat) (A Kf : mat) (eps floor tiny : R) (conv_tol : option R) (v0 : vec) (eig : mat -> list pair) : option (list (xr * vec)) :=
  let '(V, H) := arnoldi n m A eps v0 in
  match host_ritz mo tiny conv_tol (eig H) with
  | None => None
  | Some sel =>
      let phi := map (fun p => let x := ritz_vec m eps V (snd p) in (fst p, fun i => x i * k_scale n Kf floor x)) sel in
      let out := map (fun p => (Fin (fst p), snd p)) phi ++ repeat (Inf, fun _ => 0) (mo - length sel) in
      match conv_tol, phi with
      | Some tol, p :: _ => if Rlt_dec tol (resid0 n A eps (/ fst p) (snd p)) then None else Some out
      | _, _ => Some out
      end
  end.

(** eigen.py:436-444 [restrict_map]: the slots of the full matrix that survive the restriction, in the (row, column) order of
    the restricted matrix. A slot is (row, column) with its position; [free] is increasing in every caller, so the order of the
    full pattern is kept. *)
Definition restrict_map (free : list nat) (pattern : list (nat * nat)) : list (nat * (nat * nat)) :=
  flat_map (fun ke => match position (fst (snd ke)) free, position (snd (snd ke)) free with
                      | Some a, Some b => [(fst ke, (a, b))]
                      | _, _ => []
                      end) (combine (seq 0 (length pattern)) pattern).
(** lexicographic insertion: [sort_indices] of a transposed pattern; each entry carries its position *)
Definition lex_le (a b : nat * nat) : bool := (fst a <? fst b) || ((fst a =? fst b) && (snd a <=? snd b)).
(** insertion of one entry *)
Fixpoint lex_insert (x : nat * (nat * nat)) (l : list (nat * (nat * nat))) :=
  match l with
  | [] => [x]
  | y :: t => if lex_le (snd x) (snd y) then x :: y :: t else y :: lex_insert x t
  end.
(** eigen.py:450-456: the permutation [TpermK]: the positions of the reduced pattern in the order of the transposed one. *)
Definition tperm (red : list (nat * nat)) : list nat :=
  map fst (fold_right lex_insert [] (combine (seq 0 (length red)) (map (fun e => (snd e, fst e)) red))).
(** eigen.py:501-502: the gathered values [kf], then [0.5 * (kf + kf[TpermK])]. *)
Definition gather (slots : list nat) (data : list R) : list R := map (fun k => nth k data 0) slots.
(** the symmetrised values of the reduced matrix *)
Definition sym_values (red : list (nat * nat)) (kf : list R) : list R :=
  map (fun kp => 1 / 2 * (nth (fst kp) kf 0 + nth (snd kp) kf 0)) (combine (seq 0 (length kf)) (tperm red)).

(** eigen.py:785-794, 827-846: the index cache of the host backends. An eager call stores its pattern and evaluates; a call of a
    compiled function, traced with an earlier pattern, evaluates its data with the pattern stored at that time; with
    nothing stored the trace was a ValueError ([None]). *)
Inductive bcall (P D : Type) := Eager (p : P) (d : D) | Compiled (d : D).
Arguments Eager {P D}. Arguments Compiled {P D}.
(** one call: new cache and answer *)
Definition bstep {P D O} (solve : P -> D -> O) (cache : option P) (c : bcall P D) : option P * option O :=
  match c with
  | Eager p d => (Some p, Some (solve p d))
  | Compiled d => (cache, option_map (fun p => solve p d) cache)
  end.
(** a history *)
Fixpoint brun {P D O} (solve : P -> D -> O) (cache : option P) (l : list (bcall P D)) : list (option O) :=
  match l with [] => [] | c :: t => let (k, o) := bstep solve cache c in o :: brun solve k t end.
