(** Properties of the multi-node launcher. *)
From Coq Require Import String Ascii List Arith ZArith Lia Bool Decimal DecimalString DecimalNat DecimalFacts.
From Verif Require Import Launch_Model.
Import ListNotations.
Local Open Scope string_scope.
Local Open Scope list_scope.

Definition nodes_of (c : config) : list node := match c_nodes c with Val l => l | _ => [] end.

(** * Numbers survive the round trip through the environment *)
Lemma show_nonempty : forall n, show n <> "".
Proof.
  intros n H. unfold show in H. destruct (Nat.to_uint n) eqn:E; cbn in H; try discriminate H.
  pose proof (Unsigned.of_to n) as R. rewrite E in R. cbn in R. subst n. cbn in E. discriminate E.
Qed.
Lemma int_show : forall n, int_of (show n) = Some n.
Proof.
  intro n. unfold int_of. destruct (show n) eqn:E; [ exfalso; exact (show_nonempty n E) | ].
  rewrite <- E. unfold show. rewrite NilEmpty.usu. cbn. rewrite Unsigned.of_to. reflexivity.
Qed.

(** * Blanks *)
Fixpoint no_char (c : ascii) (s : string) : Prop :=
  match s with EmptyString => True | String d t => Ascii.eqb d c = false /\ no_char c t end.
Lemma no_char_app : forall c s t, no_char c s -> no_char c t -> no_char c (s ++ t)%string.
Proof. induction s; cbn; intros t H K; [ exact K | ]. destruct H. split; auto. Qed.
Lemma show_digits : forall c n, (forall d, In d ["0";"1";"2";"3";"4";"5";"6";"7";"8";"9"]%char -> Ascii.eqb d c = false) -> no_char c (show n).
Proof.
  intros c n H. unfold show. induction (Nat.to_uint n); cbn [NilEmpty.string_of_uint no_char]; try exact I;
  (split; [ apply H; cbn; tauto | assumption ]).
Qed.
Lemma show_blank : forall n, no_char " " (show n).
Proof. intro n. apply show_digits. cbn. intros d H. repeat (destruct H as [<- | H]; [ reflexivity | ]). destruct H. Qed.

Lemma append_assoc : forall a b c : string, ((a ++ b) ++ c = a ++ (b ++ c))%string.
Proof. induction a; cbn; intros; [ reflexivity | ]. rewrite IHa. reflexivity. Qed.
Lemma append_nil_r : forall a : string, (a ++ "" = a)%string.
Proof. induction a; cbn; [ reflexivity | ]. rewrite IHa. reflexivity. Qed.

Lemma words_word : forall s acc t, no_char " " s -> words_acc (s ++ t)%string acc = words_acc t (acc ++ s)%string.
Proof.
  induction s as [| c s IH]; intros acc t H.
  - cbn. rewrite append_nil_r. reflexivity.
  - destruct H as [Hc H]. cbn [append words_acc]. rewrite Hc. rewrite IH by exact H. rewrite append_assoc. reflexivity.
Qed.
Lemma words_cut : forall s t, no_char " " s -> s <> "" -> words_acc (s ++ String " " t)%string "" = s :: words_acc t "".
Proof.
  intros s t H N. rewrite words_word by exact H. cbn.
  destruct (String.eqb s "") eqn:E; [ apply String.eqb_eq in E; contradiction | reflexivity ].
Qed.
Lemma split_key : forall k acc v, no_char "=" k -> split_eq (k ++ String "=" v)%string acc = Some ((acc ++ k)%string, v).
Proof.
  induction k as [| c k IH]; intros acc v H.
  - cbn. rewrite append_nil_r. reflexivity.
  - destruct H as [Hc H]. cbn [append split_eq]. rewrite Hc. rewrite IH by exact H. rewrite append_assoc. reflexivity.
Qed.

Ltac wc s := rewrite (words_cut s); [ | cbn; tauto | discriminate ].
(** ** What a worker receives: the four variables, the container and the command that reads the script *)
Theorem C94_worker_command : forall coordinator port num i container,
  no_char " " coordinator -> no_char " " port -> no_char " " container -> container <> "" -> container <> "-e" ->
  remote (docker_cmd coordinator port num i container) =
  Some ([("JAX_COORD_ADDR", coordinator); ("JAX_COORD_PORT", port); ("JAX_NUM_PROCESSES", show num); ("JAX_PROCESS_ID", show i)],
        container, ["python3"; "-"]).
Proof.
  intros co po num i cont Hc Hp Hk Ne Nd. unfold remote, words, docker_cmd.
  assert (W : words_acc ("docker exec -i" ++ " -e JAX_COORD_ADDR=" ++ co ++ " -e JAX_COORD_PORT=" ++ po ++
     " -e JAX_NUM_PROCESSES=" ++ show num ++ " -e JAX_PROCESS_ID=" ++ show i ++ " " ++ cont ++ " python3 -")%string "" =
     ["docker"; "exec"; "-i"; "-e"; ("JAX_COORD_ADDR=" ++ co)%string; "-e"; ("JAX_COORD_PORT=" ++ po)%string;
      "-e"; ("JAX_NUM_PROCESSES=" ++ show num)%string; "-e"; ("JAX_PROCESS_ID=" ++ show i)%string; cont; "python3"; "-"]).
  { change ("docker exec -i" ++ " -e JAX_COORD_ADDR=" ++ co ++ " -e JAX_COORD_PORT=" ++ po ++
     " -e JAX_NUM_PROCESSES=" ++ show num ++ " -e JAX_PROCESS_ID=" ++ show i ++ " " ++ cont ++ " python3 -")%string
    with ("docker" ++ String " " ("exec" ++ String " " ("-i" ++ String " " ("-e" ++ String " " ("JAX_COORD_ADDR=" ++ (co ++ String " "
      ("-e" ++ String " " ("JAX_COORD_PORT=" ++ (po ++ String " " ("-e" ++ String " " ("JAX_NUM_PROCESSES=" ++ (show num ++ String " "
      ("-e" ++ String " " ("JAX_PROCESS_ID=" ++ (show i ++ String " " (cont ++ String " " ("python3" ++ String " " "-")))))))))))))))))%string.
    wc "docker". wc "exec". wc "-i". wc "-e".
    rewrite <- (append_assoc "JAX_COORD_ADDR=").
    rewrite (words_cut ("JAX_COORD_ADDR=" ++ co)%string); [ | apply no_char_app; [ cbn; tauto | assumption ] | discriminate ].
    wc "-e".
    rewrite <- (append_assoc "JAX_COORD_PORT=").
    rewrite (words_cut ("JAX_COORD_PORT=" ++ po)%string); [ | apply no_char_app; [ cbn; tauto | assumption ] | discriminate ].
    wc "-e".
    rewrite <- (append_assoc "JAX_NUM_PROCESSES=").
    rewrite (words_cut ("JAX_NUM_PROCESSES=" ++ show num)%string); [ | apply no_char_app; [ cbn; tauto | apply show_blank ] | discriminate ].
    wc "-e".
    rewrite <- (append_assoc "JAX_PROCESS_ID=").
    rewrite (words_cut ("JAX_PROCESS_ID=" ++ show i)%string); [ | apply no_char_app; [ cbn; tauto | apply show_blank ] | discriminate ].
    rewrite (words_cut cont) by assumption.
    wc "python3". reflexivity. }
  rewrite W. cbn [String.eqb Ascii.eqb Bool.eqb andb].
  apply String.eqb_neq in Nd.
  change ("JAX_COORD_ADDR=" ++ co)%string with ("JAX_COORD_ADDR" ++ String "=" co)%string.
  change ("JAX_COORD_PORT=" ++ po)%string with ("JAX_COORD_PORT" ++ String "=" po)%string.
  change ("JAX_NUM_PROCESSES=" ++ show num)%string with ("JAX_NUM_PROCESSES" ++ String "=" (show num))%string.
  change ("JAX_PROCESS_ID=" ++ show i)%string with ("JAX_PROCESS_ID" ++ String "=" (show i))%string.
  cbn [docker_env String.eqb Ascii.eqb Bool.eqb].
  rewrite !split_key by (cbn; tauto). rewrite Nd. reflexivity.
Qed.
Print Assumptions C94_worker_command.

(** A blank in a container name is not protected: the rest of the name becomes the command. *)
Theorem C94_blank_refuted : exists container,
  remote (docker_cmd "10.0.0.1" "1234" 2 1 container) <>
  Some ([("JAX_COORD_ADDR", "10.0.0.1"); ("JAX_COORD_PORT", "1234"); ("JAX_NUM_PROCESSES", "2"); ("JAX_PROCESS_ID", "1")], container, ["python3"; "-"])
  /\ option_map snd (remote (docker_cmd "10.0.0.1" "1234" 2 1 container)) = Some ["reboot"; "python3"; "-"].
Proof. exists "feax reboot". split; [ intro H; vm_compute in H; discriminate H | vm_compute; reflexivity ]. Qed.
Print Assumptions C94_blank_refuted.

(** * The launch *)
(** The usable configurations: a coordinator, a port that is a number or missing, nodes that all name a host. *)
Definition has_host (nd : node) : Prop := exists h, n_host nd = Val h.
Definition port_of (c : config) : nat := match c_port c with Val p => p | _ => 1234 end.
Definition container_of (nd : node) : string := match n_container nd with Val s => s | Missing => "feax" | Null => "None" end.
Definition usable (c : config) (addr : string) : Prop :=
  c_coordinator c = Val addr /\ c_port c <> Null /\ c_nodes c <> Null /\ Forall has_host (nodes_of c).

(** The process ids that the launched programs see, and all of what they see. [None]: could not be read. *)
Definition last_word (argv : list string) : string := List.last argv "".
Definition proc_env (e : event) : list (option envt) :=
  match e with
  | Spawn _ argv _ => [option_map (fun r => fst (fst r)) (remote (last_word argv))]
  | RunLocal _ env => [Some env]
  | Wait _ => []
  end.
Definition jax_calls (tr : list event) : list (option (option (string * nat * nat))) :=
  flat_map (fun e => map (fun o => match o with Some env => initialize env | None => None end) (proc_env e)) tr.

Lemma launch_unfold : forall w c addr script args, usable c addr ->
  launch w c script args =
  (let '(ev, ok) := start_workers w addr (show (port_of c)) (S (length (nodes_of c))) script 1 (nodes_of c) in
   if ok then
     match w_local w with
     | None => (ev ++ [RunLocal (python w :: script :: args) (local_env w addr (show (port_of c)) (S (length (nodes_of c))))], Raised)
     | Some code => (ev ++ RunLocal (python w :: script :: args) (local_env w addr (show (port_of c)) (S (length (nodes_of c)))) :: map Wait (seq 1 (length (nodes_of c))), Exit code)
     end
   else (ev, Raised)).
Proof.
  intros w c addr script args (Hc & Hp & Hn & _). unfold launch, nodes_of, port_of in *. rewrite Hc.
  destruct (c_nodes c); [ | exfalso; apply Hn; reflexivity | ]; (destruct (c_port c); [ | exfalso; apply Hp; reflexivity | ]); reflexivity.
Qed.

Fixpoint spawns (w : world) (addr port : string) (num : nat) (script : string) (i : nat) (nodes : list node) : list event :=
  match nodes with
  | [] => []
  | nd :: rest => Spawn i (ssh_cmd addr port num i (match n_host nd with Val h => h | _ => "" end) nd) script :: spawns w addr port num script (S i) rest
  end.
Lemma start_prefix : forall nodes w addr port num script i k,
  Forall has_host nodes -> k <= length nodes ->
  (forall j, j < k -> w_start w (i + j) = true) ->
  (k < length nodes -> w_start w (i + k) = false) ->
  start_workers w addr port num script i nodes = (spawns w addr port num script i (firstn k nodes), Nat.eqb k (length nodes)).
Proof.
  induction nodes as [| nd rest IH]; intros w addr port num script i k HF Hk Hs Hf.
  - cbn in Hk. assert (k = 0) by lia. subst k. reflexivity.
  - inversion HF as [| ? ? Hh HF']; subst. destruct Hh as [h Eh]. cbn [start_workers]. rewrite Eh.
    destruct k as [| k].
    + rewrite Nat.add_0_r in Hf. rewrite Hf by (cbn; lia). reflexivity.
    + pose proof (Hs 0 ltac:(lia)) as H0. rewrite Nat.add_0_r in H0. rewrite H0.
      rewrite (IH w addr port num script (S i) k HF').
      * cbn [firstn spawns length Nat.eqb]. rewrite Eh. reflexivity.
      * cbn in Hk. lia.
      * intros j Hj. replace (S i + j) with (i + S j) by lia. apply Hs. lia.
      * intro H. replace (S i + k) with (i + S k) by lia. apply Hf. cbn. lia.
Qed.
Lemma last_ssh : forall addr port num i h nd,
  last_word (ssh_cmd addr port num i h nd) = docker_cmd addr port num i (container_of nd).
Proof.
  intros. unfold last_word, ssh_cmd, container_of.
  assert (C : fmt (get_default (n_container nd) "feax") = match n_container nd with Val s => s | Missing => "feax" | Null => "None" end)
    by (destruct (n_container nd); reflexivity).
  rewrite C. set (d := docker_cmd _ _ _ _ _).
  destruct (get_default (n_key nd) "") as [k |]; [ destruct (String.eqb k "") | ]; reflexivity.
Qed.

(** Blank-free and non-empty names. *)
Definition plain_node (nd : node) : Prop := no_char " " (container_of nd) /\ container_of nd <> "" /\ container_of nd <> "-e".

Lemma jax_app : forall a b, jax_calls (a ++ b) = jax_calls a ++ jax_calls b.
Proof. intros. unfold jax_calls. apply flat_map_app. Qed.
Lemma jax_spawns : forall nodes w addr port num script i,
  Forall plain_node nodes -> no_char " " addr -> no_char " " port -> addr <> "" ->
  jax_calls (spawns w addr port num script i nodes) =
  map (fun j => Some (Some ((addr ++ ":1234")%string, num, j))) (seq i (length nodes)).
Proof.
  induction nodes as [| nd rest IH]; intros w addr port num script i HF Ha Hp Ne; [ reflexivity | ].
  inversion HF as [| ? ? (H1 & H2 & H3) HF']; subst.
  cbn [spawns length seq map].
  match goal with |- jax_calls (?e :: ?l) = _ => change (e :: l) with ([e] ++ l) end.
  rewrite jax_app, IH by assumption. unfold jax_calls. cbn [flat_map proc_env map]. rewrite List.app_nil_r.
  rewrite last_ssh, C94_worker_command by assumption.
  cbn [option_map fst map app]. f_equal.
  unfold initialize. cbn [getenv String.eqb Ascii.eqb Bool.eqb]. apply String.eqb_neq in Ne. rewrite Ne, !int_show. reflexivity.
Qed.
Lemma jax_waits : forall l, jax_calls (map Wait l) = [].
Proof. induction l; [ reflexivity | ]. cbn. exact IHl. Qed.

Definition started (w : world) (c : config) : Prop := forall i, 1 <= i <= length (nodes_of c) -> w_start w i = true.

(** ** Every rank exactly once, with the same coordinator and the same number of processes *)
Theorem C94_ranks : forall w c addr script args code,
  usable c addr -> addr <> "" -> no_char " " addr -> Forall plain_node (nodes_of c) ->
  started w c -> w_local w = Some code ->
  jax_calls (fst (launch w c script args)) =
  map (fun i => Some (Some ((addr ++ ":1234")%string, 1 + length (nodes_of c), i))) (seq 1 (length (nodes_of c)) ++ [0]).
Proof.
  intros w c addr script args code U Ne Hb HP HS HL.
  rewrite (launch_unfold w c addr script args U). destruct U as (_ & _ & _ & HF).
  rewrite (start_prefix (nodes_of c) w addr _ _ script 1 (length (nodes_of c)) HF (le_n _)).
  - rewrite Nat.eqb_refl, HL. cbn [fst]. rewrite jax_app, firstn_all.
    rewrite jax_spawns; [ | exact HP | exact Hb | apply show_blank | exact Ne ].
    rewrite map_app. f_equal.
    match goal with |- jax_calls (?e :: ?l) = _ => change (e :: l) with ([e] ++ l) end.
    rewrite jax_app, jax_waits, List.app_nil_r. unfold jax_calls. cbn [flat_map proc_env map]. rewrite List.app_nil_r. cbn [map]. f_equal.
    unfold initialize, local_env, setenv. cbn [getenv String.eqb Ascii.eqb Bool.eqb].
    apply String.eqb_neq in Ne. rewrite Ne, int_show. reflexivity.
  - intros j Hj. apply HS. lia.
  - lia.
Qed.
Print Assumptions C94_ranks.

(** The options for a node's key: none when it is missing, null or empty. *)
Definition key_options (nd : node) : list string := match n_key nd with Val "" => [] | Val k => ["-i"; k] | _ => [] end.

(** ** Order and exit code: workers first, then the coordinator with the script arguments, then one wait
    for each worker; the exit code is the coordinator's *)
Theorem C94_order : forall w c addr script args code,
  usable c addr -> started w c -> w_local w = Some code ->
  exists sp env,
    launch w c script args = (sp ++ RunLocal (python w :: script :: args) env :: map Wait (seq 1 (length (nodes_of c))), Exit code)
    /\ length sp = length (nodes_of c)
    /\ (forall k, k < length (nodes_of c) -> let nd := nth k (nodes_of c) {| n_host := Missing; n_key := Missing; n_container := Missing |} in
          exists cmd, nth_error sp k = Some (Spawn (S k) cmd script)
          /\ removelast cmd = "ssh" :: key_options nd ++ ["-o"; "StrictHostKeyChecking=no"; ("admin@" ++ match n_host nd with Val h => h | _ => "" end)%string])
    /\ (forall k, ~ In k ["JAX_COORD_ADDR"; "JAX_COORD_PORT"; "JAX_NUM_PROCESSES"; "JAX_PROCESS_ID"] -> getenv env k = getenv (environ w) k)
    /\ getenv env "JAX_COORD_PORT" = Some (show (port_of c)).
Proof.
  intros w c addr script args code U HS HL.
  exists (spawns w addr (show (port_of c)) (S (length (nodes_of c))) script 1 (nodes_of c)), (local_env w addr (show (port_of c)) (S (length (nodes_of c)))).
  split; [ | split; [ | split; [ | split ] ] ].
  - rewrite (launch_unfold w c addr script args U). destruct U as (_ & _ & _ & HF).
    rewrite (start_prefix (nodes_of c) w addr _ _ script 1 (length (nodes_of c)) HF (le_n _)).
    + rewrite Nat.eqb_refl, HL, firstn_all. reflexivity.
    + intros j Hj. apply HS. lia.
    + lia.
  - assert (L : forall l a p n i, length (spawns w a p n script i l) = length l) by (induction l; intros; cbn; [ reflexivity | rewrite IHl; reflexivity ]).
    apply L.
  - assert (L : forall l a p n i k, k < length l -> let nd := nth k l {| n_host := Missing; n_key := Missing; n_container := Missing |} in
       exists cmd, nth_error (spawns w a p n script i l) k = Some (Spawn (i + k) cmd script)
       /\ removelast cmd = "ssh" :: key_options nd ++ ["-o"; "StrictHostKeyChecking=no"; ("admin@" ++ match n_host nd with Val h => h | _ => "" end)%string]).
    { induction l as [| nd l IH]; intros a p n i k Hk; [ cbn in Hk; lia | ]. destruct k as [| k].
      - cbn [spawns nth_error nth]. rewrite Nat.add_0_r. eexists. split; [ reflexivity | ].
        unfold ssh_cmd, key_options. destruct (n_key nd) as [| | k0]; cbn [get_default]; [ reflexivity | reflexivity | ].
        destruct k0; reflexivity.
      - cbn [spawns nth_error nth]. destruct (IH a p n (S i) k) as (cmd & H1 & H2); [ cbn in Hk; lia | ].
        exists cmd. rewrite H1. replace (S i + k) with (i + S k) by lia. split; [ reflexivity | exact H2 ]. }
    intros k Hk. exact (L (nodes_of c) addr (show (port_of c)) (S (length (nodes_of c))) 1 k Hk).
  - intros k Hk. unfold local_env, setenv. cbn [getenv].
    repeat (match goal with |- context [String.eqb k ?s] => destruct (String.eqb_spec k s) as [-> | ]; [ exfalso; apply Hk; cbn; tauto | ] end).
    reflexivity.
  - unfold local_env, setenv. cbn [getenv String.eqb Ascii.eqb Bool.eqb]. reflexivity.
Qed.
Print Assumptions C94_order.

(** ** A failure while starting worker [k + 1]: exactly the workers before it run, nothing waits for them,
    the coordinator is never started *)
Theorem C94_crash : forall w c addr script args k,
  usable c addr -> k < length (nodes_of c) ->
  (forall i, 1 <= i <= k -> w_start w i = true) -> w_start w (S k) = false ->
  snd (launch w c script args) = Raised
  /\ map (fun e => match e with Spawn i _ _ => Some i | _ => None end) (fst (launch w c script args)) = map Some (seq 1 k).
Proof.
  intros w c addr script args k U Hk HS HF0.
  rewrite (launch_unfold w c addr script args U). destruct U as (_ & _ & _ & HF).
  rewrite (start_prefix (nodes_of c) w addr _ _ script 1 k HF (Nat.lt_le_incl _ _ Hk)).
  - destruct (Nat.eqb_spec k (length (nodes_of c))); [ lia | ]. split; [ reflexivity | ]. cbn [fst].
    assert (L : forall l a p n i, map (fun e => match e with Spawn i _ _ => Some i | _ => None end) (spawns w a p n script i l) = map Some (seq i (length l))).
    { induction l; intros; [ reflexivity | ]. cbn. rewrite IHl. reflexivity. }
    rewrite L, firstn_length_le by lia. reflexivity.
  - intros j Hj. apply HS. lia.
  - intros _. exact HF0.
Qed.
Print Assumptions C94_crash.

(** ** The configured port never reaches the runtime, and the script arguments never reach a worker *)
Definition with_port (c : config) (p : nat) : config := {| c_coordinator := c_coordinator c; c_port := Val p; c_nodes := c_nodes c |}.
Theorem C94_port_refuted : exists w c script args p,
  c_port (with_port c p) = Val p /\ p <> 1234
  /\ jax_calls (fst (launch w (with_port c p) script args)) = jax_calls (fst (launch w c script args))
  /\ In (Some (Some ("10.0.0.1:1234", 2, 0))) (jax_calls (fst (launch w (with_port c p) script args))).
Proof.
  exists {| w_start := fun _ => true; w_local := Some 0%Z; python := "python3"; environ := [] |},
    {| c_coordinator := Val "10.0.0.1"; c_port := Missing; c_nodes := Val [{| n_host := Val "10.0.0.2"; n_key := Missing; n_container := Missing |}] |},
    "run.py", [], 4321.
  split; [ reflexivity | ]. split; [ discriminate | ]. split; vm_compute; [ reflexivity | tauto ].
Qed.
Print Assumptions C94_port_refuted.
Definition is_spawn (e : event) : bool := match e with Spawn _ _ _ => true | _ => false end.
Theorem C94_arguments_refuted : forall w c script args args',
  filter is_spawn (fst (launch w c script args)) = filter is_spawn (fst (launch w c script args')).
Proof.
  intros. unfold launch. destruct (c_coordinator c); [ reflexivity | | ];
  (destruct (get_default (c_nodes c) []) as [nodes |]; [ | reflexivity ];
   destruct (start_workers _ _ _ _ _ _ _) as [ev ok]; destruct ok; [ | reflexivity ]; cbn [get_default];
   try reflexivity; destruct (w_local w); cbn [fst]; rewrite !filter_app; reflexivity).
Qed.
Print Assumptions C94_arguments_refuted.

(** ** [initialize] outside a launch and [finalize] *)
Theorem C94_single_node : forall e,
  (getenv e "JAX_COORD_ADDR" = None \/ getenv e "JAX_COORD_ADDR" = Some "" -> initialize e = Some None)
  /\ (forall coord, getenv e "JAX_COORD_ADDR" = Some coord -> coord <> "" -> initialize e <> Some None)
  /\ (forall coord, getenv e "JAX_COORD_ADDR" = Some coord -> coord <> "" ->
        getenv e "JAX_NUM_PROCESSES" = None \/ getenv e "JAX_PROCESS_ID" = None -> initialize e = None)
  /\ (forall s, finalize s <> None).
Proof.
  intro e. split; [ | split; [ | split ] ].
  - unfold initialize. intros [H | H]; rewrite H; reflexivity.
  - intros co H N. unfold initialize. rewrite H. apply String.eqb_neq in N. rewrite N.
    destruct (getenv e "JAX_NUM_PROCESSES") as [a |]; [ | discriminate ].
    destruct (getenv e "JAX_PROCESS_ID") as [b |]; [ | discriminate ].
    destruct (int_of a); [ | discriminate ]. destruct (int_of b); discriminate.
  - intros co H N D. unfold initialize. rewrite H. apply String.eqb_neq in N. rewrite N.
    destruct D as [D | D]; rewrite D; [ reflexivity | ]. destruct (getenv e "JAX_NUM_PROCESSES"); reflexivity.
  - intros [[] |]; discriminate.
Qed.
Print Assumptions C94_single_node.

(** Hypotheses met by a cluster of three machines. *)
Definition ex_cluster : config :=
  {| c_coordinator := Val "192.168.100.10"; c_port := Val 1234;
     c_nodes := Val [{| n_host := Val "192.168.100.11"; n_key := Val "/root/.ssh/id"; n_container := Val "feax" |};
                     {| n_host := Val "192.168.100.12"; n_key := Null; n_container := Missing |}] |}.
Definition ex_world : world := {| w_start := fun _ => true; w_local := Some 0%Z; python := "/usr/bin/python3"; environ := [("HOME", "/root")] |}.
Example C94_cluster_example :
  usable ex_cluster "192.168.100.10" /\ no_char " " "192.168.100.10" /\ Forall plain_node (nodes_of ex_cluster) /\ started ex_world ex_cluster
  /\ jax_calls (fst (launch ex_world ex_cluster "run.py" ["--n"; "10"])) =
     [Some (Some ("192.168.100.10:1234", 3, 1)); Some (Some ("192.168.100.10:1234", 3, 2)); Some (Some ("192.168.100.10:1234", 3, 0))].
Proof.
  split; [ | split; [ cbn; tauto | split; [ | split; [ intros i _; reflexivity | vm_compute; reflexivity ] ] ] ].
  - split; [ reflexivity | ]. split; [ discriminate | ]. split; [ discriminate | ]. repeat constructor; eexists; reflexivity.
  - repeat constructor; cbn; try tauto; discriminate.
Qed.
