(** Model of the bridge that hands a solved field to the next problem.
    Source: /repo/feax/traced_params.py. *)
From Coq Require Import List Arith ZArith.
From Verif Require Import Base Csr_Model Assembly_Model Dof_Model Params_Model.
Import ListNotations.

(** traced_params.py:378-423 [node_var_from_solution], on the layout of [problem] (problem.py:242).
    [sol_list[var_index]] is a Python list index; [u[:, component]] wraps negative components
    (components outside [-vec, vec) are not modelled: JAX clamps them; here they read 0-th or last). *)
Definition node_var_from_solution {A : Type} (d : A) (L : layout) (sol : list A) (component : option Z) (var_index : Z) : res (list A) :=
  match py_index (length L) var_index with
  | None => IndexError
  | Some i =>
      let u := nth i (unflatten L sol) [] in
      let vec := snd (nth i L (0, 0)) in
      if vec =? 1 then Ok (map (fun row => nth 0 row d) u)
      else match component with
           | None => ValueError
           | Some c => let k := if (c <? 0)%Z then Z.to_nat (c + Z.of_nat vec) else Nat.min (Z.to_nat c) (vec - 1) in
               Ok (map (fun row => nth k row d) u)
           end
  end.
