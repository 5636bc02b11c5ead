(** Model of the linear-buckling eigensolvers (feax/solvers/eigen.py), over the real numbers. Library factorizations and
    eigensolvers are relations given by their contracts (exact arithmetic). *)
From Coq Require Import Reals List Arith Bool.
From Verif Require Import Tmc_Model.
Import ListNotations.
Open Scope R_scope.

Definition mat := nat -> nat -> R.
Definition vec := nat -> R.
Definition mmul (n : nat) (A B : mat) : mat := fun i j => rs n (fun k => A i k * B k j).
Definition tr (A : mat) : mat := fun i j => A j i.
Definition mv (n : nat) (A : mat) (x : vec) : vec := fun i => rs n (fun k => A i k * x k).
Definition dotp (n : nat) (x y : vec) : R := rs n (fun i => x i * y i).
Definition meq (n : nat) (A B : mat) : Prop := forall i j, (i < n)%nat -> (j < n)%nat -> A i j = B i j.
Definition eye : mat := fun i j => if Nat.eqb i j then 1 else 0.
Definition diag (w : vec) : mat := fun i j => if Nat.eqb i j then w i else 0.
Definition half (A : mat) : mat := fun i j => 1 / 2 * (A i j + A j i).

(** eigen.py:56-86 [generalized_eigh]: one run. [cholesky] gives a lower triangular factor with positive diagonal,
    [solve_triangular] solves, [eigh] gives an orthonormal eigenbasis with ascending eigenvalues. *)
Definition cholesky (n : nat) (B L : mat) : Prop := (forall i j, (i < j)%nat -> L i j = 0) /\ (forall i, (i < n)%nat -> 0 < L i i) /\ meq n (mmul n L (tr L)) B.
Definition eigh (n : nat) (C : mat) (w : vec) (U : mat) : Prop :=
  meq n (mmul n C U) (mmul n U (diag w)) /\ meq n (mmul n (tr U) U) eye /\ meq n (mmul n U (tr U)) eye /\ forall i j, (i <= j < n)%nat -> w i <= w j.
Definition geigh (n : nat) (A B : mat) (w : vec) (X : mat) : Prop := exists L Y Z U,
  cholesky n B L /\ meq n (mmul n L Y) (half A) /\ meq n (mmul n L Z) (tr Y) /\ eigh n (half (tr Z)) w U /\ meq n (mmul n (tr L) X) U.

(** eigen.py:187-196 [_restrict_csr]: the rows and columns of the free degrees of freedom. *)
Definition restrict (free : list nat) (M : mat) : mat := fun a b => M (nth a free 0%nat) (nth b free 0%nat).
(** eigen.py:169-170, 365-366: [modes[:, free] = ...] on zeros. *)
Fixpoint position (j : nat) (l : list nat) : option nat :=
  match l with [] => None | x :: l => if Nat.eqb x j then Some 0%nat else option_map S (position j l) end.
Definition scatter (free : list nat) (x : vec) : vec := fun j => match position j free with Some a => x a | None => 0 end.

(** A factor with its vector on the free degrees of freedom; ascending selection of at most [m] of them:
    eigen.py:154-157, 341-343 ([argsort] with the invalid ones last, cut, keep the valid). *)
Definition pair := (R * vec)%type.
Fixpoint insert (p : pair) (l : list pair) : list pair :=
  match l with [] => [p] | q :: l => if Rlt_dec (fst p) (fst q) then p :: q :: l else q :: insert p l end.
Definition select (m : nat) (l : list pair) : list pair := firstn m (fold_right insert [] l).
Definition keep {A} (f : A -> option pair) (l : list A) : list pair := flat_map (fun a => match f a with Some p => [p] | None => [] end) l.
(** eigen.py:89-171 [_dense_buckling]: [lam = -1/gamma]; not finite or not above [zero_tol] is dropped. *)
Definition dense_factor (zero_tol : R) (gamma : vec) (V : mat) (k : nat) : option pair :=
  if Req_EM_T (gamma k) 0 then None
  else if Rlt_dec zero_tol (- 1 / gamma k) then Some (- 1 / gamma k, fun i => V i k) else None.
Definition dense_buckling (K Kg : mat) (free : list nat) (m : nat) (zero_tol : R) (out : list pair) : Prop :=
  let n := length free in exists gamma V, geigh n (restrict free Kg) (restrict free K) gamma V /\
  out = map (fun p => (fst p, scatter free (snd p))) (select m (keep (dense_factor zero_tol gamma V) (seq 0 n))).

(** eigen.py:268-367 [_sparse_buckling] with a converged ARPACK: [eigs] is the list of pairs (mu, vector) it returns;
    [tiny] stands for 1e-12, [resid] for the eigen-residual of the first mode. [None] is [BucklingConvergenceError]. *)
Definition arpack_k (m nf : nat) : option nat := if (nf <? 3)%nat then None else Some (Nat.min (m + 4) (nf - 2)).
(** eigen.py:324: size of the Krylov basis; [nmv] is [num_matvecs]. *)
Definition arpack_ncv (nmv k nf : nat) : nat := Nat.min (nf - 1) (Nat.max nmv (2 * k + 1)).
Definition sparse_factor (tiny : R) (p : pair) : option pair :=
  if Req_EM_T (fst p) 0 then None else if Rlt_dec tiny (/ fst p) then Some (/ fst p, snd p) else None.
Definition sparse_buckling (free : list nat) (m : nat) (tiny : R) (conv_tol : option R) (resid : pair -> R) (eigs : list pair) : option (list pair) :=
  match arpack_k m (length free) with
  | None => None
  | Some _ =>
      let sel := select m (keep (sparse_factor tiny) eigs) in
      let out := map (fun p => (fst p, scatter free (snd p))) sel in
      match conv_tol with
      | None => Some out
      | Some tol => match sel with [] => None | p :: _ => if Rlt_dec tol (resid p) then None else Some out end
      end
  end.

(** eigen.py:636, 648-651: number of Arnoldi columns of [_matfree_buckling]; [nmv] is [num_matvecs]. Simplification: with
    [length free = 0] the code passes -1, here 0. *)
Definition matfree_size (nmv nf : nat) : nat := Nat.min nmv (nf - 1).
(** eigen.py:575-688 [_matfree_buckling] after [eig_fun]: [eigs] is the list of the real Ritz pairs (mu, vector). Unlike the sparse
    solver there is no lower bound on the number of free degrees of freedom. *)
Definition matfree_buckling (free : list nat) (m : nat) (tiny : R) (conv_tol : option R) (resid : pair -> R) (eigs : list pair) : option (list pair) :=
  let sel := select m (keep (sparse_factor tiny) eigs) in
  let out := map (fun p => (fst p, scatter free (snd p))) sel in
  match conv_tol with
  | None => Some out
  | Some tol => match sel with [] => None | p :: _ => if Rlt_dec tol (resid p) then None else Some out end
  end.

(** Numbers with infinity and not-a-number, for the padded modes. *)
Inductive xr := Fin (r : R) | Inf | NaN.
Definition xmul (a b : xr) : xr :=
  match a, b with
  | Fin a, Fin b => Fin (a * b)
  | Fin a, Inf => if Rlt_dec 0 a then Inf else NaN
  | Inf, Fin a => if Rlt_dec 0 a then Inf else NaN
  | Inf, Inf => Inf | _, _ => NaN
  end.
(** Simplification: minus infinity is not needed below and is read as not-a-number. *)
Definition xadd (a b : xr) : xr := match a, b with Fin a, Fin b => Fin (a + b) | NaN, _ | _, NaN => NaN | _, _ => Inf end.
Definition xsum (l : list xr) : xr := fold_right xadd (Fin 0) l.
(** eigen.py:797-819 [_solve_host]: scale to unit [phi' K phi], pad with infinity and zero vectors to [m] modes. *)
Definition norm_scale (n : nat) (Kf : mat) (x : vec) : R := 1 / sqrt (Rabs (dotp n x (mv n Kf x))).
Definition solve_host (K : mat) (free : list nat) (m : nat) (found : list pair) : list (xr * vec) :=
  let n := length free in
  let phi := map (fun p => let x := fun a => snd p (nth a free 0%nat) in (Fin (fst p), fun a => x a * norm_scale n (restrict free K) x)) found in
  firstn m (phi ++ repeat (Inf, fun _ => 0) (m - length found)).
(** eigen.py:691-709 [_outer_cotangent]: the entry of slot (r, c). *)
Definition outer_cot (phi : list vec) (w : list xr) (free : list nat) (r c : nat) : xr :=
  match position r free, position c free with
  | Some a, Some b => xsum (map (fun pw => xmul (xmul (snd pw) (Fin (fst pw a))) (Fin (fst pw b))) (combine phi w))
  | _, _ => Fin 0
  end.
(** eigen.py:857-862 [_bwd] of the host backends and 561-569 of the cudss one. *)
Definition weights (guarded : bool) (bar : list R) (lam : list xr) : list xr * list xr :=
  let g (w : xr -> xr) (l : xr) := if guarded then match l with Fin _ => w l | _ => Fin 0 end else w l in
  (map (fun bl => g (fun l => xmul (Fin (fst bl)) l) (snd bl)) (combine bar lam),
   map (fun bl => g (fun l => xmul (xmul (Fin (fst bl)) l) l) (snd bl)) (combine bar lam)).
Definition bwd (guarded : bool) (free : list nat) (bar : list R) (out : list (xr * vec)) : (nat -> nat -> xr) * (nat -> nat -> xr) :=
  let '(w1, w2) := weights guarded bar (map fst out) in
  (outer_cot (map snd out) w1 free, outer_cot (map snd out) w2 free).
