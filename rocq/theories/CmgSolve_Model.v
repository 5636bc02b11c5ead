(** The compact geometric multigrid solve. Source: /repo/feax/solvers/cmg.py.
    Arrays are total functions on indices; numbers are exact reals (no NaN, no rounding). The levels
    (node numbering, colours, transfers) come from [Cmg_Model]. *)
From Coq Require Import Reals List Arith Lia Bool.
From Verif Require Import Tmc_Model Adaptive_Model.
Import ListNotations.
Local Open Scope R_scope.

Definition vec := nat -> R.

(** cmg.py:34 [_CORNERS], 53-54: corner [a] of the unit cube, third coordinate fastest. *)
Definition corner (a c : nat) : R :=
  match c with O => if (a <? 4)%nat then 0 else 1 | 1%nat => if (a mod 4 <? 2)%nat then 0 else 1 | _ => if (a mod 2 <? 1)%nat then 0 else 1 end.
Definition sgn (a c : nat) : R := 2 * corner a c - 1.
(** cmg.py:48-52: Lame constants and the 6x6 matrix [D]. *)
Definition lame (nu E : R) : R := E * nu / ((1 + nu) * (1 - 2 * nu)).
Definition shear (nu E : R) : R := E / (2 * (1 + nu)).
Definition Dmat (nu E : R) (i j : nat) : R :=
  if (i <? 3)%nat && (j <? 3)%nat then (if (i =? j)%nat then lame nu E + 2 * shear nu E else lame nu E)
  else if (i =? j)%nat then shear nu E else 0.
(** cmg.py:55-56 Gauss point [q], third coordinate fastest. *)
Definition gauss (q c : nat) : R := sgn q c * (1 / sqrt 3).
(** cmg.py:59-64 reference derivatives of the shape functions at the point [x]. *)
Definition dN (x : vec) (i a : nat) : R :=
  match i with
  | O => 1 / 8 * sgn a 0 * (1 + sgn a 1 * x 1%nat) * (1 + sgn a 2 * x 2%nat)
  | 1%nat => 1 / 8 * sgn a 1 * (1 + sgn a 0 * x 0%nat) * (1 + sgn a 2 * x 2%nat)
  | _ => 1 / 8 * sgn a 2 * (1 + sgn a 0 * x 0%nat) * (1 + sgn a 1 * x 1%nat)
  end.
(** cmg.py:65-67. *)
Definition Jac (x : vec) (i j : nat) : R := rs 8 (fun a => dN x i a * corner a j).
Definition dNxyz (x : vec) (i a : nat) : R := rs 3 (fun j => inv3 (Jac x) i j * dN x j a).
(** cmg.py:68-72: row [r], column [c] = 3 * corner + component. *)
Definition Bmat (x : vec) (r c : nat) : R :=
  let a := (c / 3)%nat in let k := (c mod 3)%nat in
  match r, k with
  | O, O => dNxyz x 0 a | 1%nat, 1%nat => dNxyz x 1 a | 2%nat, 2%nat => dNxyz x 2 a
  | 3%nat, O => dNxyz x 1 a | 3%nat, 1%nat => dNxyz x 0 a
  | 4%nat, 1%nat => dNxyz x 2 a | 4%nat, 2%nat => dNxyz x 1 a
  | 5%nat, O => dNxyz x 2 a | 5%nat, 2%nat => dNxyz x 0 a
  | _, _ => 0
  end.
(** cmg.py:57-58, 73-74 [make_KE_3d]. *)
Definition KEmat (nu E : R) (i j : nat) : R :=
  rs 8 (fun q => rs 6 (fun r => rs 6 (fun s => Bmat (gauss q) r i * Dmat nu E r s * Bmat (gauss q) s j)) * det3 (Jac (gauss q))).

(** cmg.py:358-373, 465 one level as the jitted solve sees it: capacities (nodes, elements), element
    dofs, mask of free dofs, colours, moduli, transfer indices and weights. *)
Record lev := { CN : nat; CE : nat; edof : nat -> nat -> nat; free : vec; color : nat -> nat; Ev : vec;
                Pidx : nat -> nat -> nat; Pw : nat -> nat -> R }.
(** The same level before padding (cmg.py:163-176, 209): numbers of nodes and cells and the raw arrays. *)
Record raw := { nnode : nat; ncell : nat; r_edof : nat -> nat -> nat; r_free : vec; r_color : nat -> nat;
                r_idx : nat -> nat -> nat; r_w : nat -> nat -> R }.
(** cmg.py:77-79 [_cap]. *)
Definition cap (n bucket : nat) : nat := ((Nat.max 1 n + bucket - 1) / bucket * bucket)%nat.
(** cmg.py:361-372, 432-435: zero-filled arrays whose head is the raw array. *)
Definition pad (cn ce : nat) (l : raw) (E : vec) : lev :=
  {| CN := cn; CE := ce;
     edof := fun e a => if (e <? ncell l)%nat then r_edof l e a else 0%nat;
     free := fun i => if (i <? 3 * nnode l)%nat then r_free l i else 0;
     color := fun n => if (n <? nnode l)%nat then r_color l n else 0%nat;
     Ev := fun e => if (e <? ncell l)%nat then E e else 0;
     Pidx := fun n k => if (n <? nnode l)%nat then r_idx l n k else 0%nat;
     Pw := fun n k => if (n <? nnode l)%nat then r_w l n k else 0 |}.

Section Solve.
Variable KE : nat -> nat -> R.

(** cmg.py:212-215 [_mv_j]. *)
Definition scat (L : lev) (y : nat -> nat -> R) (i : nat) : R :=
  rs (CE L) (fun e => rs 24 (fun a => if (edof L e a =? i)%nat then y e a else 0)).
Definition mv (L : lev) (u : vec) : vec := fun i =>
  scat L (fun e a => Ev L e * rs 24 (fun b => u (edof L e b) * KE b a)) i * free L i.
(** cmg.py:217-225 [_dinv_j] with 91-92 [_node_diag_blocks_3d]; the inverse is the adjugate formula. *)
Definition blk (L : lev) (n i j : nat) : R :=
  rs 8 (fun a => rs (CE L) (fun e => if (edof L e (3 * a) / 3 =? n)%nat then Ev L e * KE (3 * a + i)%nat (3 * a + j)%nat else 0)).
Definition dinv (L : lev) (n : nat) : nat -> nat -> R :=
  inv3 (fun i j => if Rlt_dec 0 (free L (3 * n)%nat) then blk L n i j else if (i =? j)%nat then 1 else 0).
(** cmg.py:227-235 [_smooth_j]. *)
Definition resid (L : lev) (b u : vec) : vec := fun i => (b i - mv L u i) * free L i.
Definition colour_step (L : lev) (b : vec) (c : nat) (u : vec) : vec := fun i =>
  (u i + (if (color L (i / 3) =? c)%nat then 1 else 0) * rs 3 (fun j => dinv L (i / 3) (i mod 3) j * resid L b u (3 * (i / 3) + j)%nat)) * free L i.
Definition sweep (L : lev) (b u : vec) : vec := fold_left (fun v c => colour_step L b c v) (seq 0 8) u.
Fixpoint smooth (L : lev) (b : vec) (sweeps : nat) (u : vec) : vec :=
  match sweeps with O => u | S k => smooth L b k (sweep L b u) end.
(** cmg.py:265-272 restriction and prolongation. A gather clamps its index to the last coarse node, a
    scatter drops indices past it. *)
Definition restrict (L C : lev) (r : vec) : vec := fun i =>
  rs (CN L) (fun n => rs 8 (fun k => if (Pidx L n k =? i / 3)%nat then Pw L n k * r (3 * n + i mod 3)%nat else 0)) * free C i.
Definition prolong (L C : lev) (ec : vec) : vec := fun i =>
  rs 8 (fun k => Pw L (i / 3) k * ec (3 * Nat.min (Pidx L (i / 3) k) (CN C - 1) + i mod 3)%nat) * free L i.

(** cmg.py:255-273 [_vcycle_j]; [coarse] is the coarsest solve, already masked in and out
    (cmg.py:260, 253). *)
Variable coarse : vec -> vec.
Variables pre post : nat.
Definition masked_coarse (L : lev) (b : vec) : vec := fun i => coarse (fun j => b j * free L j) i * free L i.
Fixpoint vcycle (P : list lev) (b : vec) {struct P} : vec :=
  match P with
  | [] => fun _ => 0
  | L :: rest =>
      match rest with
      | [] => masked_coarse L b
      | C :: _ =>
          let u := smooth L b pre (fun _ => 0) in
          let ec := vcycle rest (restrict L C (resid L b u)) in
          smooth L b post (fun i => u i + prolong L C ec i)
      end
  end.

(** cmg.py:275-297 [_solve_j]. *)
Fixpoint maxabs (n : nat) (r : vec) : R := match n with O => 0 | S m => Rmax (maxabs m r) (Rabs (r m)) end.
Definition vdot (n : nat) (x y : vec) : R := rs n (fun i => x i * y i).
Definition tiny : R := / 10 ^ 30.
Variables (tol : R) (maxit : nat).
Definition state : Type := vec * vec * vec * R * nat.
Definition body (P : list lev) (L : lev) (st : state) : state :=
  let '(u, r, p, rz, k) := st in
  let Ap := mv L p in
  let alpha := rz / (vdot (3 * CN L) p Ap + tiny) in
  let u' := fun i => u i + alpha * p i in
  let r' := fun i => r i - alpha * Ap i in
  let z := vcycle P r' in
  let rz' := vdot (3 * CN L) r' z in
  (u', r', (fun i => z i + rz' / (rz + tiny) * p i), rz', S k).
(** [fuel] is [maxit - k]. *)
Fixpoint loop (P : list lev) (L : lev) (bound : R) (fuel : nat) (st : state) : state :=
  match fuel with
  | O => st
  | S f => let '(_, r, _, _, _) := st in if Rlt_dec bound (maxabs (3 * CN L) r) then loop P L bound f (body P L st) else st
  end.
Definition solve_j (P : list lev) (L : lev) (b u0 : vec) : vec * nat * R :=
  let b' := fun i => b i * free L i in
  let u := fun i => u0 i * free L i in
  let r := fun i => b' i - mv L u i in
  let r0 := maxabs (3 * CN L) r + tiny in
  let z := vcycle P r in
  let '(u1, r1, _, _, k) := loop P L (tol * r0) maxit (u, r, z, vdot (3 * CN L) r z, 0%nat) in
  (u1, k, maxabs (3 * CN L) r1 / r0).
End Solve.

(** cmg.py:426-436 [es_from_rho] on one level, 420: moduli from densities; [p] a whole exponent. *)
Definition simp (Emin E0 : R) (p : nat) (rho : R) : R := Emin + rho ^ p * (E0 - Emin).
(** cmg.py:358-373, 432-435, 465: the levels passed to the solve; each level has its cells' moduli. *)
Definition levels_of (bucket : nat) (ls : list (raw * vec)) : list lev :=
  map (fun le => pad (cap (nnode (fst le)) bucket) (cap (ncell (fst le)) bucket) (fst le) (snd le)) ls.
(** cmg.py:462-467 [raw_solve]: right-hand side zero-padded, zero start, first [ndof0] entries. *)
Definition raw_solve (KE : nat -> nat -> R) (coarse : vec -> vec) (pre post : nat) (tol : R) (maxit bucket : nat)
    (l0 : raw * vec) (rest : list (raw * vec)) (rhs : vec) : vec * nat * R :=
  let P := levels_of bucket (l0 :: rest) in
  solve_j KE coarse pre post tol maxit P (hd (pad 0 0 (fst l0) (snd l0)) P) (fun i => if (i <? 3 * nnode (fst l0))%nat then rhs i else 0) (fun _ => 0).

(** cmg.py:389-412, 438-442: the matrix handed to the direct coarsest solve: element entries whose row
    and column are both free, plus one on the diagonal of every fixed dof (compressed storage as in C02
    is not repeated here). *)
Definition coarse_matrix (KE : nat -> nat -> R) (L : lev) (i j : nat) : R :=
  rs (CE L) (fun e => rs 24 (fun a => rs 24 (fun b =>
    if (edof L e a =? i)%nat && (edof L e b =? j)%nat then
      if Rlt_dec 0 (free L i) then if Rlt_dec 0 (free L j) then Ev L e * KE a b else 0 else 0 else 0)))
  + (if Req_EM_T (free L i) 0 then if (i =? j)%nat then 1 else 0 else 0).
(** cmg.py:244 the operator of the Krylov coarsest solve. *)
Definition krylov_op (KE : nat -> nat -> R) (L : lev) (x : vec) : vec := fun i => mv KE L x i + (1 - free L i) * x i.

(** cmg.py:312-322 [compliance_and_dc] on the raw level-0 cells. *)
Definition ce (KE : nat -> nat -> R) (l : raw) (u : vec) (e : nat) : R :=
  rs 24 (fun a => rs 24 (fun b => u (r_edof l e a) * KE a b * u (r_edof l e b))).
Definition compliance (KE : nat -> nat -> R) (l : raw) (Emin E0 : R) (p : nat) (rho u : vec) : R :=
  rs (ncell l) (fun e => simp Emin E0 p (rho e) * ce KE l u e).
Definition dc (KE : nat -> nat -> R) (l : raw) (Emin E0 : R) (p : nat) (rho u : vec) (e : nat) : R :=
  - INR p * rho e ^ (p - 1) * (E0 - Emin) * ce KE l u e.
(** cmg.py:419-424 [mv0]. *)
Definition mv0 (KE : nat -> nat -> R) (l : raw) (Emin E0 : R) (p : nat) (rho u : vec) : vec := fun i =>
  rs (ncell l) (fun e => rs 24 (fun a => if (r_edof l e a =? i)%nat then simp Emin E0 p (rho e) * rs 24 (fun b => u (r_edof l e b) * KE b a) else 0)) * r_free l i.
(** cmg.py:477-483 [solve_bwd] given the adjoint solution [lam]: minus the reverse-mode derivative of
    [rho -> mv0 rho u] applied to [lam]. *)
Definition bwd (KE : nat -> nat -> R) (l : raw) (Emin E0 : R) (p : nat) (rho u lam : vec) (e : nat) : R :=
  - (INR p * rho e ^ (p - 1) * (E0 - Emin) *
     rs 24 (fun a => lam (r_edof l e a) * r_free l (r_edof l e a) * rs 24 (fun b => u (r_edof l e b) * KE b a))).
(** cmg.py:132-150 [_parse_coarse]. *)
Inductive options := NoOptions | Direct | Krylov (name : option nat) | OtherOptions.
Inductive coarse_kind := CuDSS | KrylovCG | KrylovNamed (name : nat).
Definition parse_coarse (has_cudss : bool) (o : options) : option coarse_kind :=
  match o with
  | NoOptions | Direct => if has_cudss then Some CuDSS else None
  | Krylov None => Some KrylovCG
  | Krylov (Some n) => Some (KrylovNamed n)
  | OtherOptions => None
  end.
