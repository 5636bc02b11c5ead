(** Model of the multi-node launcher. Source: /repo/feax/distributed/__init__.py.
    Processes of the operating system are events in a trace; failures are given by an oracle. *)
From Coq Require Import String Ascii List Arith ZArith Bool Decimal DecimalString DecimalNat.
Import ListNotations.
Local Open Scope string_scope.
Local Open Scope list_scope.

(** [f"{n}"] and [str(n)] of a non-negative int, and [int(s)] on digit strings. [int] also accepts
    signs, spaces and underscores; not modelled. *)
Definition show (n : nat) : string := NilEmpty.string_of_uint (Nat.to_uint n).
Definition int_of (s : string) : option nat :=
  match s with EmptyString => None | _ => option_map Nat.of_uint (NilEmpty.uint_of_string s) end.

(** A YAML mapping entry: key missing, key present without a value (None), or a value. *)
Inductive entry (A : Type) := Missing | Null | Val (a : A).
Arguments Missing {A}. Arguments Null {A}. Arguments Val {A}.
(** Strings of the file are taken as they are; other YAML types are formatted by the f-strings and not
    modelled. *)
Record node := { n_host : entry string; n_key : entry string; n_container : entry string }.
Record config := { c_coordinator : entry string; c_port : entry nat; c_nodes : entry (list node) }.

Definition envt := list (string * string).
Fixpoint getenv (e : envt) (k : string) : option string :=
  match e with [] => None | (k', v) :: t => if String.eqb k k' then Some v else getenv t k end.

(** What the launcher does, in order. *)
Inductive event :=
| Spawn (i : nat) (argv : list string) (stdin : string)     (* Popen with the script as standard input *)
| RunLocal (argv : list string) (env : envt)                (* subprocess.run *)
| Wait (i : nat).
(** How it ends: exit code, or an exception (before or after starting processes). *)
Inductive ending := Exit (code : Z) | Raised.

(** What the outside world does: whether worker [i] can be started (script opened, ssh found), and how the
    local script ends ([None]: it cannot be started). *)
Record world := { w_start : nat -> bool; w_local : option Z; python : string; environ : envt }.

(** [d.get(key, default)]: the default is used only for a missing key; a null value stays None. *)
Definition get_default {A} (e : entry A) (d : A) : option A := match e with Missing => Some d | Null => None | Val a => Some a end.
(** f-strings print None as "None". *)
Definition fmt (o : option string) : string := match o with Some s => s | None => "None" end.
Definition fmt_nat (o : option nat) : string := match o with Some n => show n | None => "None" end.

(** distributed/__init__.py:138-145. *)
Definition docker_cmd (coordinator port : string) (num i : nat) (container : string) : string :=
  ("docker exec -i" ++ " -e JAX_COORD_ADDR=" ++ coordinator ++ " -e JAX_COORD_PORT=" ++ port ++
   " -e JAX_NUM_PROCESSES=" ++ show num ++ " -e JAX_PROCESS_ID=" ++ show i ++ " " ++ container ++ " python3 -")%string.
(** :129-146. An empty or null [ssh_key] adds no option. *)
Definition ssh_cmd (coordinator port : string) (num i : nat) (host : string) (nd : node) : list string :=
  ["ssh"] ++ (match get_default (n_key nd) "" with Some k => if String.eqb k "" then [] else ["-i"; k] | None => [] end) ++
  ["-o"; "StrictHostKeyChecking=no"; ("admin@" ++ host)%string;
   docker_cmd coordinator port num i (fmt (get_default (n_container nd) "feax"))].
(** :126-150 the worker loop: events and whether it completed. [node["host"]] raises KeyError when missing;
    a null host is printed. *)
Fixpoint start_workers (w : world) (coordinator port : string) (num : nat) (script : string) (i : nat) (nodes : list node) : list event * bool :=
  match nodes with
  | [] => ([], true)
  | nd :: rest =>
      match n_host nd with
      | Missing => ([], false)
      | h => if w_start w i then
               let '(ev, ok) := start_workers w coordinator port num script (S i) rest in
               (Spawn i (ssh_cmd coordinator port num i (fmt (get_default h "")) nd) script :: ev, ok)
             else ([], false)
      end
  end.
(** :153-157 [env[...] = ...] on a copy of the environment. *)
Definition setenv (e : envt) (k v : string) : envt := (k, v) :: e.
Definition local_env (w : world) (coordinator port : string) (num : nat) : envt :=
  setenv (setenv (setenv (setenv (environ w) "JAX_COORD_ADDR" coordinator) "JAX_COORD_PORT" port) "JAX_NUM_PROCESSES" (show num)) "JAX_PROCESS_ID" "0".
(** :118-166 [_launch]. A config that is not a mapping raises at once and is not modelled. [workers.wait]
    returns (workers that never end make the launcher wait for ever). A null coordinator is printed for
    the workers but cannot be put into the local environment (TypeError). *)
Definition launch (w : world) (c : config) (script : string) (args : list string) : list event * ending :=
  match c_coordinator c with
  | Missing => ([], Raised)
  | co =>
      let coordinator := get_default co "" in
      let port := fmt_nat (get_default (c_port c) 1234) in
      match get_default (c_nodes c) [] with
      | None => ([], Raised)                                 (* len(None) *)
      | Some nodes =>
          let num := 1 + length nodes in
          let '(ev, ok) := start_workers w (fmt coordinator) port num script 1 nodes in
          if ok then
            match coordinator with
            | None => (ev, Raised)
            | Some addr =>
                let run := RunLocal (python w :: script :: args) (local_env w addr port num) in
                match w_local w with
                | None => (ev ++ [run], Raised)
                | Some code => (ev ++ run :: map Wait (seq 1 (length nodes)), Exit code)
                end
            end
          else (ev, Raised)
      end
  end.

(** :26-44 [initialize]: [None] raises (missing or malformed variables), [Some None] single-node mode,
    [Some (Some (address, processes, id))] the call into JAX. *)
Definition initialize (e : envt) : option (option (string * nat * nat)) :=
  match getenv e "JAX_COORD_ADDR" with
  | None => Some None
  | Some coord =>
      if String.eqb coord "" then Some None
      else match getenv e "JAX_NUM_PROCESSES", getenv e "JAX_PROCESS_ID" with
           | Some n, Some i => match int_of n, int_of i with
                               | Some n, Some i => Some (Some ((coord ++ ":1234")%string, n, i))
                               | _, _ => None
                               end
           | _, _ => None
           end
  end.
(** :47-57 [finalize]: whatever [jax.distributed.shutdown] does, nothing is raised. *)
Definition finalize (shutdown : option unit) : option unit := match shutdown with Some tt => Some tt | None => Some tt end.

(** The remote side: the login shell splits the command at blanks (no quoting or metacharacters are
    modelled), and docker turns [-e NAME=VALUE] into environment entries up to the container name. *)
Fixpoint words_acc (s acc : string) : list string :=
  match s with
  | EmptyString => if String.eqb acc "" then [] else [acc]
  | String c t => if Ascii.eqb c " "%char then (if String.eqb acc "" then words_acc t "" else acc :: words_acc t "")
                  else words_acc t (acc ++ String c "")
  end.
Definition words (s : string) : list string := words_acc s "".
Fixpoint split_eq (s acc : string) : option (string * string) :=
  match s with
  | EmptyString => None
  | String c t => if Ascii.eqb c "="%char then Some (acc, t) else split_eq t (acc ++ String c "")
  end.
(** [docker exec -i -e K=V ... CONTAINER COMMAND...]: container, command and environment. *)
Fixpoint docker_env (ws : list string) : option (envt * string * list string) :=
  match ws with
  | [] => None
  | w :: rest =>
      if String.eqb w "-e" then
        match rest with
        | kv :: rest' => match split_eq kv "" , docker_env rest' with
                         | Some (k, v), Some (e, cont, cmd) => Some ((k, v) :: e, cont, cmd)
                         | _, _ => None
                         end
        | [] => None
        end
      else Some ([], w, rest)
  end.
Definition remote (cmd : string) : option (envt * string * list string) :=
  match words cmd with
  | d :: x :: f :: rest => if (String.eqb d "docker" && String.eqb x "exec" && String.eqb f "-i")%bool then docker_env rest else None
  | _ => None
  end.
