(** Model of the Gmsh sessions and temporary files of the mesh generators, with an exception
    possible at every call.
    Source: /repo/feax/mesh.py:329-445, 631-695, 742-825, 912-1011 (box, sphere, cylinder,
    refine), /repo/feax/gene/adaptive.py:233-265, 369-389, 440-484 (adaptive meshes),
    /repo/feax/gene/mesh_extraction.py:157-237 and /repo/feax/gene/sdf.py:199-282 (volume
    meshes from densities and distance functions). *)
From Coq Require Import Reals List String Lia.
Import ListNotations.
Open Scope string_scope.

(** Options of the open session, latest setting of each name. *)
Definition options : Type := list (string * R).
Fixpoint set_opt (o : options) (k : string) (v : R) : options :=
  match o with
  | [] => [(k, v)]
  | (k', v') :: r => if String.eqb k' k then (k, v) :: r else (k', v') :: set_opt r k v
  end.

(** The process state: the Gmsh session ([None]: not initialised), the temporary files on disk
    (numbered by creation), the local variables [stl_path] and [msh_path], and the options in
    force at each mesh generation so far. *)
Record st : Type := {
  sess : option options; files : list nat; next : nat;
  v_stl : option nat; v_msh : option nat; log : list options }.

(** Calls. [SetLit]: an option set to a literal; [SetArg]: to a value passed by the caller.
    [Gmsh]: any other call of the Gmsh API; [Gen]: mesh generation or refinement. [User]: the
    geometry callback of [adaptive_mesh]. [Tmp]/[Unlink]: [NamedTemporaryFile(delete=False)]
    and [os.unlink] for the STL ([true]) or the MSH file. [Py]: anything else. *)
Inductive prim : Type :=
| Init | Fin | SetLit (k : string) (v : R) | SetArg (k : string) (v : R)
| Gmsh (what : string) | Gen (what : string) | User
| Tmp (stl : bool) | Unlink (stl : bool) | Py (what : string).

Definition with_sess (s : st) (x : option options) : st :=
  {| sess := x; files := files s; next := next s; v_stl := v_stl s; v_msh := v_msh s; log := log s |}.

(** Effect of a call that succeeds; [None]: it cannot succeed (no session, no such file).
    [gmsh.initialize] in an open session keeps it (Gmsh warns and returns); [gmsh.finalize]
    drops it with all options. [User] is handled by [exec]. *)
Definition eff (p : prim) (s : st) : option st :=
  match p with
  | Init => Some (match sess s with None => with_sess s (Some []) | Some _ => s end)
  | Fin => Some (with_sess s None)
  | SetLit k v | SetArg k v =>
      match sess s with Some o => Some (with_sess s (Some (set_opt o k v))) | None => None end
  | Gmsh _ => match sess s with Some _ => Some s | None => None end
  | Gen _ =>
      match sess s with
      | Some o => Some {| sess := sess s; files := files s; next := next s; v_stl := v_stl s;
                          v_msh := v_msh s; log := log s ++ [o] |}
      | None => None
      end
  | User => None
  | Tmp b => Some {| sess := sess s; files := next s :: files s; next := S (next s);
                     v_stl := if b then Some (next s) else v_stl s;
                     v_msh := if b then v_msh s else Some (next s); log := log s |}
  | Unlink b =>
      match (if b then v_stl s else v_msh s) with
      | Some f => if existsb (Nat.eqb f) (files s)
                  then Some {| sess := sess s; files := filter (fun g => negb (Nat.eqb f g)) (files s);
                               next := next s; v_stl := v_stl s; v_msh := v_msh s; log := log s |}
                  else None
      | None => None
      end
  | Py _ => Some s
  end.

(** Python control flow. [CEither] is a data-dependent branch, [CStar] a loop. *)
Inductive cmd : Type :=
| CPrim (p : prim) | CSkip | CSeq (a b : cmd) | CFinally (body fin : cmd)
| CEither (a b : cmd) | CStar (a : cmd) | CRaise | CRet.

(** How a command ends; [Raised true] is an explicit [raise], [Raised false] an exception
    coming out of a call. *)
Inductive outcome : Type := Norm | Raised (explicit : bool) | Ret.

(** All executions; [fails p] says that the call [p] may raise. *)
Inductive exec (fails : prim -> Prop) : cmd -> st -> outcome -> st -> Prop :=
| e_ok p s s' : eff p s = Some s' -> exec fails (CPrim p) s Norm s'
| e_fail p s : fails p -> exec fails (CPrim p) s (Raised false) s
| e_impossible p s : p <> User -> eff p s = None -> exec fails (CPrim p) s (Raised false) s
| e_user s x : exec fails (CPrim User) s Norm (with_sess s x)
| e_user_fail s x : exec fails (CPrim User) s (Raised false) (with_sess s x)
| e_skip s : exec fails CSkip s Norm s
| e_seq a b s s1 o s2 : exec fails a s Norm s1 -> exec fails b s1 o s2 -> exec fails (CSeq a b) s o s2
| e_seq_stop a b s o s1 : o <> Norm -> exec fails a s o s1 -> exec fails (CSeq a b) s o s1
| e_fin a f s o s1 s2 : exec fails a s o s1 -> exec fails f s1 Norm s2 -> exec fails (CFinally a f) s o s2
| e_fin_fail a f s o s1 e s2 : exec fails a s o s1 -> exec fails f s1 (Raised e) s2 ->
    exec fails (CFinally a f) s (Raised e) s2
| e_left a b s o s' : exec fails a s o s' -> exec fails (CEither a b) s o s'
| e_right a b s o s' : exec fails b s o s' -> exec fails (CEither a b) s o s'
| e_star_0 a s : exec fails (CStar a) s Norm s
| e_star_S a s s1 o s2 : exec fails a s Norm s1 -> exec fails (CStar a) s1 o s2 -> exec fails (CStar a) s o s2
| e_star_stop a s o s1 : o <> Norm -> exec fails a s o s1 -> exec fails (CStar a) s o s1
| e_raise s : exec fails CRaise s (Raised true) s
| e_ret s : exec fails CRet s Ret s.

Fixpoint seqs (ps : list prim) : cmd :=
  match ps with [] => CSkip | p :: r => CSeq (CPrim p) (seqs r) end.

(** The common frame: validation ([pre]), [gmsh.initialize()], the terminal option, then
    [try: body finally: gmsh.finalize()]. *)
Definition framed (pre body : cmd) : cmd :=
  CSeq pre (CSeq (CPrim Init) (CSeq (CPrim (SetLit "General.Terminal" 0))
    (CFinally body (CPrim Fin)))).

(** Reading the mesh back: [getNodes], [getElements], the search for the element block with
    its explicit [RuntimeError], the renumbering. *)
Definition read_mesh : cmd :=
  CSeq (seqs [Gmsh "getNodes"; Gmsh "getElements"]) (CSeq (CEither CRaise CSkip) (CPrim (Py "reindex"))).

(** mesh.py:329-330 and alike: the element type check. *)
Definition check_type : cmd := CEither CRaise CSkip.

Definition hex_opts (full : bool) : list prim :=
  SetLit "Mesh.RecombineAll" 1 :: (if full then [SetLit "Mesh.Algorithm" 8] else []) ++ [SetLit "Mesh.Algorithm3D" 1].

(** mesh.py:329-445 [box_mesh]. *)
Definition box_cmd (hex recombine : bool) (h : R) : cmd :=
  framed (CSeq check_type (CPrim (Py "parse size")))
    (CSeq (seqs ([Gmsh "model.add"; Gmsh "addBox"; Gmsh "synchronize";
              SetArg "Mesh.CharacteristicLengthMin" h; SetArg "Mesh.CharacteristicLengthMax" h]
            ++ (if hex then if recombine then [Gmsh "getEntities"; Py "divisions"; Gmsh "setTransfinite"]
                            else hex_opts true else [])
            ++ [Gen "generate"])) (CSeq read_mesh CRet)).

(** mesh.py:631-695 [sphere_mesh] and 742-825 [cylinder_mesh] (which has more geometry calls). *)
Definition round_cmd (shape : string) (hex : bool) (h : R) : cmd :=
  framed check_type
    (CSeq (seqs ([Gmsh "model.add"; Py "axis"; Gmsh shape; Gmsh "synchronize";
              SetArg "Mesh.CharacteristicLengthMin" h; SetArg "Mesh.CharacteristicLengthMax" h]
            ++ (if hex then hex_opts false else []) ++ [Gen "generate"])) (CSeq read_mesh CRet)).

(** mesh.py:912-1011 [refine_mesh] with [levels] at least 1. *)
Definition refine_cmd (levels : nat) : cmd :=
  framed (CSeq check_type (CPrim (Py "check shapes")))
    (CSeq (seqs ([Gmsh "model.add"; Gmsh "addDiscreteEntity"; Gmsh "addNodes"; Gmsh "addElements"]
            ++ repeat (Gen "refine") levels)) (CSeq read_mesh CRet)).

(** adaptive.py:258-265 [_apply_size_options]. *)
Definition size_opts : list prim :=
  [SetLit "Mesh.MeshSizeExtendFromBoundary" 0; SetLit "Mesh.MeshSizeFromPoints" 0;
   SetLit "Mesh.MeshSizeFromCurvature" 0; SetLit "Mesh.CharacteristicLengthMin" 0;
   SetLit "Mesh.CharacteristicLengthMax" 1e22].

(** adaptive.py:369-389 [adaptive_mesh]; [callback]: the geometry is a function. *)
Definition adaptive_cmd (callback : bool) : cmd :=
  framed (CPrim (Py "size callback"))
    (CSeq (seqs [Gmsh "model.add"]) (CSeq (if callback then CPrim User else seqs [Gmsh "importShapes"; Gmsh "synchronize"])
      (CSeq (seqs (Gmsh "setSizeCallback" :: size_opts ++ [Gen "generate"])) (CSeq read_mesh CRet)))).

(** adaptive.py:447-466 [_generate]: one attempt ([return] ends the attempt only). *)
Definition attempt_cmd (periodic : bool) : cmd :=
  framed (CPrim (Py "size callback"))
    (CSeq (seqs ([Gmsh "model.add"; Gmsh "addBox"; Gmsh "synchronize"; Gmsh "setSizeCallback"] ++ size_opts
            ++ (if periodic then [Gmsh "setPeriodic"] else []) ++ [Gen "generate"])) read_mesh).
(** adaptive.py:440-484 [adaptive_box_mesh]: a first attempt and some retries. *)
Definition adaptive_box_cmd (periodic : bool) : cmd :=
  CSeq (CPrim (Py "parse size")) (CSeq (attempt_cmd periodic)
    (CSeq (CStar (CSeq (CPrim (Py "rescale")) (attempt_cmd periodic))) CRet)).

(** mesh_extraction.py:157-237 [extract_volume_mesh] and sdf.py:199-282 [to_volume_mesh]: no
    [try]; explicit clean-up only when no surfaces were found, and at the end. *)
Definition volume_cmd (surface : string) (tet10 : bool) (h : R) : cmd :=
  CSeq (seqs [Py surface; Tmp true; Py "save stl"; Py "mesh size"; Init; SetLit "General.Verbosity" 1;
              Gmsh "merge"; Gmsh "createTopology"; Gmsh "classifySurfaces"; Gmsh "createGeometry"; Gmsh "getEntities"])
    (CEither (CSeq (seqs [Fin; Unlink true]) CRaise)
      (CSeq (seqs ([Gmsh "addSurfaceLoop"; Gmsh "addVolume"; Gmsh "synchronize";
                SetArg "Mesh.CharacteristicLengthMin" (h * / 2); SetArg "Mesh.CharacteristicLengthMax" h]
              ++ (if tet10 then [SetLit "Mesh.ElementOrder" 2] else [])
              ++ [Gen "generate"; Tmp false; Gmsh "write"; Fin; Py "meshio.read"; Py "from_gmsh";
                  Unlink true; Unlink false])) CRet)).

(** The calls a user can make. *)
Inductive call : Type :=
| Box (hex recombine : bool) (h : R) | Sphere (hex : bool) (h : R) | Cylinder (hex : bool) (h : R)
| Refine (levels : nat) | Adaptive (callback : bool) | AdaptiveBox (periodic : bool)
| ExtractVolume (tet10 : bool) (h : R) | ToVolume (tet10 : bool) (h : R).

Definition body_of (c : call) : cmd :=
  match c with
  | Box hex rec h => box_cmd hex rec h
  | Sphere hex h => round_cmd "addSphere" hex h
  | Cylinder hex h => round_cmd "addCylinder" hex h
  | Refine n => refine_cmd n
  | Adaptive b => adaptive_cmd b
  | AdaptiveBox b => adaptive_box_cmd b
  | ExtractVolume t h => volume_cmd "extract_surface" t h
  | ToVolume t h => volume_cmd "to_mesh" t h
  end.

(** A sequence of calls, each ending in any way; local variables start unset. *)
Definition fresh_locals (s : st) : st :=
  {| sess := sess s; files := files s; next := next s; v_stl := None; v_msh := None; log := log s |}.
Inductive history (fails : prim -> Prop) : list call -> st -> st -> Prop :=
| h_nil s : history fails [] s s
| h_cons c cs s o s1 s2 : exec fails (body_of c) (fresh_locals s) o s1 -> history fails cs s1 s2 ->
    history fails (c :: cs) s s2.
