(** * UcxConfModel: initialising UCX with the settings of an actor pool

    Models [UCXInitializer] (python/xoscar/backends/communication/ucx.py 58-190),
    which [UCXServer.create] (423) and [UCXClient.connect] (522-523) call with the
    entry "ucx" of the pool's communication settings.

    Simplifications: names and values are ASCII text; a flag is its truth value
    ([ucx_config.get(name)] in a test); [create-cuda-contex] is compared with True.
    A dictionary is an association list in insertion order; a later entry for the
    same name replaces an earlier one.  Log messages and the warning about the CUDA
    device (142-171) are left out: they change nothing. *)
From Coq Require Import List Bool Ascii String.
From Verif Require Import PyStr.
Import ListNotations.
Open Scope list_scope.

Definition dict := list (text * text).
(** [d[k]], [k in d]: the entry written last *)
Fixpoint dget (d : dict) (k : text) : option text :=
  match d with
  | [] => None
  | (k', v) :: r => match dget r k with
                    | Some w => Some w
                    | None => if text_eqb k' k then Some v else None
                    end
  end.
Definition has (d : dict) (k : text) : bool := match dget d k with Some _ => true | None => false end.
(** [d[k] = v] and [d.update(e)], up to the order of the entries *)
Definition dset (d : dict) (k v : text) : dict := d ++ [(k, v)].
Definition dupdate (d e : dict) : dict := d ++ e.

(** The entry "ucx" of the settings, 423 and 522 *)
Record conf := mkConf {
  tcp : bool; nvlink : bool; infiniband : bool; rdmacm : bool; cuda_copy : bool;
  create_cuda_contex : bool;
  environment : dict }.

Definition upper1 (c : ascii) : ascii :=
  let n := nat_of_ascii c in
  if (Nat.leb 97 n && Nat.leb n 122)%bool then ascii_of_nat (n - 32) else c.
Definition upper (s : text) : text := map upper1 s.

(** Lines 71-94 *)
Definition flag_options (c : conf) (environ : dict) : dict :=
  if tcp c || nvlink c || infiniband c then
    let tls := lit "tcp" in
    let tls_priority := if rdmacm c then lit "rdmacm" else lit "tcp" in
    let tls := if nvlink c || cuda_copy c then tls ++ lit ",cuda_copy" else tls in
    let tls := if infiniband c then lit "ib," ++ tls else tls in
    let tls := if nvlink c then tls ++ lit ",cuda_ipc" else tls in
    [(lit "TLS", tls); (lit "SOCKADDR_TLS_PRIORITY", tls_priority)]
  else match dget environ (lit "UCX_TLS") with
       | Some v => [(lit "TLS", v)]
       | None => []
       end.

(** Line 98: [f'UCX_{"_".join(s.upper() for s in k.split("-"))}'] *)
Definition env_key (k : text) : text := lit "UCX_" ++ join (lit "_") (map upper (split (lit "-") k)).
(** Line 99: [key[4:]] *)
Definition opt_key (key : text) : text := skipn 4 key.

(** Lines 96-114 *)
Fixpoint envs_of (options environ : dict) (entries envs : dict) : dict :=
  match entries with
  | [] => envs
  | (k, v) :: r =>
      let key := env_key k in
      if has options (opt_key key) then envs_of options environ r envs
      else if has environ key then envs_of options environ r envs
      else envs_of options environ r (dset envs key v)
  end.

(** Lines 62-116 *)
Definition get_options (c : conf) (environ : dict) : dict * dict :=
  let options := flag_options c environ in
  (options, envs_of options environ (environment c) []).

(** Lines 133-140: does this process need a CUDA context first? *)
Fixpoint is_in (p s : text) : bool :=
  startswith p s || match s with [] => false | _ :: r => is_in p r end.
Definition ucx_tls (environ options envs : dict) : text :=
  match dget environ (lit "UCX_TLS") with
  | Some v => v
  | None => match dget options (lit "TLS") with
            | Some v => v
            | None => match dget envs (lit "UCX_TLS") with Some v => v | None => [] end
            end
  end.
Definition wants_cuda (c : conf) (environ options envs : dict) : bool :=
  create_cuda_contex c
  || (is_in (lit "cuda") (ucx_tls environ options envs)
      && negb (is_in (lit "^cuda") (ucx_tls environ options envs))).

(** What [ucp.init()] is given: its arguments (none, line 182), the environment of the
    process (which the C library reads) and the mapping [os.environ] (which Python
    code reads).  [os.environ.copy()] is a plain dict: updating it and binding the name
    [os.environ] to it does not call [putenv], so the environment of the process stays. *)
Record handed := mkHanded { h_options : dict; h_process : dict; h_python : dict }.

(** [os.environ] is either the mapping of the process environment or a plain dict. *)
Inductive pymap := TheProcess | Plain (d : dict).
Record proc := mkP {
  process_env : dict;
  os_environ : pymap;
  inited : bool;
  inits : list (conf * handed);   (** every call of [ucp.init] that succeeded, last first *)
  attempts : list (conf * handed);   (** every call of [ucp.init], last first *)
  contexts : nat }.        (** how often a CUDA context was asked for *)
Inductive ended := Fine | ImportErr | UcpErr.
Definition python_env (p : proc) : dict :=
  match os_environ p with TheProcess => process_env p | Plain d => d end.

(** Lines 118-185.  [numba]: the CUDA support is installed; [ok]: [ucp.init()] succeeds. *)
Definition init (c : conf) (numba ok : bool) (p : proc) : proc * ended :=
  if inited p then (p, Fine)
  else
    let environ := python_env p in
    let '(options, envs) := get_options c environ in
    if wants_cuda c environ options envs && negb numba then (p, ImportErr)
    else
      let ctx := if wants_cuda c environ options envs then S (contexts p) else contexts p in
      let original := os_environ p in
      let p1 := mkP (process_env p) (Plain (dupdate environ envs)) (inited p) (inits p) (attempts p) ctx in
      let given := mkHanded [] (process_env p1) (python_env p1) in
      let p2 := mkP (process_env p1) original (inited p1) (inits p1) ((c, given) :: attempts p1) (contexts p1) in
      if ok then (mkP (process_env p2) (os_environ p2) true ((c, given) :: inits p2) (attempts p2) (contexts p2), Fine)
      else (p2, UcpErr).

(** Lines 187-190 *)
Definition reset (p : proc) : proc := mkP (process_env p) (os_environ p) false (inits p) (attempts p) (contexts p).

(** What can happen in a process: channels are opened and servers created with some
    settings, the program changes its environment, UCX is reset (the tests do). *)
Inductive op := Init (c : conf) (numba ok : bool) | SetEnv (k v : text) | Reset.
Definition step (p : proc) (o : op) : proc :=
  match o with
  | Init c numba ok => fst (init c numba ok p)
  | SetEnv k v => mkP (dset (process_env p) k v) (os_environ p) (inited p) (inits p) (attempts p) (contexts p)
  | Reset => reset p
  end.
Definition run (p : proc) (os : list op) : proc := fold_left step os p.
Definition fresh_process (env : dict) : proc := mkP env TheProcess false [] [] 0.
