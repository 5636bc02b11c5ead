(** Model of sparse matrices obtained by coloured probing.
    Source: /repo/feax/asd.py:194-277. The library asdex is modelled by what its functions
    compute: one derivative product per colour, with the sum of the unit vectors of that colour
    as seed, and the entry of each pattern position read off the product of its colour. The
    colouring itself is an input (asdex's own heuristic is not modelled). *)
From Verif Require Import Base Csr_Model Merge_Model.

(** Forward mode colours the columns, reverse mode the rows. *)
Inductive mode : Type := Fwd | Rev.
(** asdex's [ColoredPattern]: pattern positions in their order, the colours and how many. *)
Record colored : Type := {
  k_nr : nat; k_nc : nat; k_rows : list nat; k_cols : list nat;
  k_mode : mode; k_colors : list nat; k_num : nat }.

Section Probe.
  Variable K : CRing.
  Local Open Scope ring_K.

  (** The seed of colour [c] in a space of dimension [n]. *)
  Definition seed (n : nat) (colors : list nat) (c : nat) : list K :=
    map (fun j => if (nth j colors 0 =? c)%nat then 1 else 0) (seq 0 n).
  (** [asdex.compressed_jacobian_from_coloring] (asd.py:230, 273): one Jacobian-vector or
      vector-Jacobian product per colour. *)
  Definition compressed (C : colored) (jvp vjp : list K -> list K) : list (list K) :=
    match k_mode C with
    | Fwd => map (fun c => jvp (seed (k_nc C) (k_colors C) c)) (seq 0 (k_num C))
    | Rev => map (fun c => vjp (seed (k_nr C) (k_colors C) c)) (seq 0 (k_num C))
    end.
  (** [asdex.decompress_data] (asd.py:206), in the order of the pattern positions. *)
  Definition decompress (C : colored) (B : list (list K)) : list K :=
    map (fun ij => match k_mode C with
                   | Fwd => get (nth (nth (snd ij) (k_colors C) 0%nat) B []) (fst ij)
                   | Rev => get (nth (nth (fst ij) (k_colors C) 0%nat) B []) (snd ij)
                   end) (combine (k_rows C) (k_cols C)).
  (** asd.py:194-210, 213-231 [sparse_jacobian_fn]: [jac_fn] at one point, whose derivative
      products are given. *)
  Definition jacobian_at (C : colored) (jvp vjp : list K -> list K) : option (csr K) :=
    csr_producer (k_nr C) (k_nc C) (k_rows C) (k_cols C) (decompress C (compressed C jvp vjp)).

  (** Symmetric (star) colouring, asd.py:234-253: the position (i, j) is read off colour of j
      at row i when j is the only pattern column of its colour there, otherwise off the colour
      of i at row j. *)
  Definition sole (C : colored) (i j : nat) : bool :=
    forallb (fun p => negb (fst p =? i) || negb (nth (snd p) (k_colors C) 0 =? nth j (k_colors C) 0) || (snd p =? j))%nat
            (combine (k_rows C) (k_cols C)).
  Definition star_decompress (C : colored) (B : list (list K)) : list K :=
    map (fun ij => if sole C (fst ij) (snd ij)
                   then get (nth (nth (snd ij) (k_colors C) 0%nat) B []) (fst ij)
                   else get (nth (nth (fst ij) (k_colors C) 0%nat) B []) (snd ij))
        (combine (k_rows C) (k_cols C)).
  (** asd.py:234-253 [sparse_hessian_fn]: one Hessian-vector product per colour. *)
  Definition hessian_at (C : colored) (hvp : list K -> list K) : option (csr K) :=
    csr_producer (k_nr C) (k_nc C) (k_rows C) (k_cols C)
      (star_decompress C (map (fun c => hvp (seed (k_nc C) (k_colors C) c)) (seq 0 (k_num C)))).

  (** asd.py:256-277 [operator_assembler]: the pattern is canonicalised, coloured ([colors] and
      [num] for the columns of the canonical pattern) and probed with the operator itself (the
      Jacobian-vector product of a linear function at zero). *)
  Definition pattern_colored (p : pat_in) (colors : list nat) (num : nat) : colored :=
    let A := to_scipy_pattern p in
    {| k_nr := sp_nr A; k_nc := sp_nc A; k_rows := map fst (sp_pairs A); k_cols := map snd (sp_pairs A);
       k_mode := Fwd; k_colors := colors; k_num := num |}.
  Definition operator_assembler (p : pat_in) (colors : list nat) (num : nat) (matvec : list K -> list K) : option (csr K) :=
    jacobian_at (pattern_colored p colors num) matvec matvec.

  (** reduced.py:287-320, flat/solver.py:243-293: the matrix of [v -> P' J (P v)], with the
      pattern of the triple product. *)
  Definition reduced_pattern_in (P Kp : pat_in) : pat_in :=
    let R := reduced_operator_pattern P Kp in
    PScipy (sp_nr R) (sp_nc R) (combine (sp_pairs R) (sp_data R)).
  Definition assemble_reduced (P Kp : pat_in) (colors : list nat) (num : nat) (matvec : list K -> list K) : option (csr K) :=
    operator_assembler (reduced_pattern_in P Kp) colors num matvec.
End Probe.
Arguments seed {K}. Arguments compressed {K}. Arguments decompress {K}. Arguments jacobian_at {K}.
Arguments star_decompress {K}. Arguments hessian_at {K}. Arguments operator_assembler {K}. Arguments assemble_reduced {K}.
