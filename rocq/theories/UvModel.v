(** * UvModel: installing packages into a virtual environment with uv

    Models python/xoscar/virtualenv/uv.py 118-308: [_resolve_install_plan],
    [_split_specs], [_filter_packages_not_installed] and [install_packages].

    Simplifications:
    - package names are normalised (the code compares them in lower case, lines 173,
      203, 228; [-] and [_] are not identified, which only makes it install more);
    - a version is a number, or a text that [packaging] cannot parse;
    - a specifier is a list of comparisons; requirements arrive after
      [process_packages] (C47), so environment markers are gone;
    - uv itself is a parameter: a resolver ([--dry-run]), an installer with
      dependencies, and an installer of single items ([--no-deps]), which may fail.
      As documented for uv, it does not see system site packages;
    - Python looks a package up in the virtual environment first and then in the
      directories of the system in order ([--system-site-packages], line 101). *)
From Coq Require Import List Bool Arith.
Import ListNotations.

Notation name := nat.
Notation url := nat.
Notation index := nat.
Inductive version := Good (v : nat) | Odd (text : nat).
Definition version_eq_dec (a b : version) : {a = b} + {a <> b}.
Proof. decide equality; apply Nat.eq_dec. Defined.

(** ** Requirements *)
Inductive clause := Ge (v : nat) | Lt (v : nat) | Eq (v : nat) | Ne (v : nat).
Record req := mkReq { rname : name; extras : list nat; specifier : list clause; rurl : option url }.
Inductive spec := Vcs (u : url) | Named (r : req).   (** utils.py 86-100: [is_vcs_url] *)

Definition holds (v : nat) (c : clause) : bool :=
  match c with Ge w => w <=? v | Lt w => v <? w | Eq w => v =? w | Ne w => negb (v =? w) end.
(** [Version(v) in specifier]; [None]: [Version] raises *)
Definition in_specifier (v : version) (s : list clause) : option bool :=
  match v with Good n => Some (forallb (holds n) s) | Odd _ => None end.

(** ** Package directories *)
Definition table := list (name * version).
Fixpoint lookup (t : table) (n : name) : option version :=
  match t with [] => None | (m, v) :: t' => if m =? n then Some v else lookup t' n end.
Definition without (t : table) (n : name) : table := filter (fun e => negb (fst e =? n)) t.
Definition put (t : table) (n : name) (v : version) : table := (n, v) :: without t n.
(** What [import] finds *)
Definition visible (env dists : table) (n : name) : option version :=
  match lookup env n with Some v => Some v | None => lookup dists n end.

(** ** uv *)
(** A line of the report of [--dry-run]: [+ name==version], with [(from url)] when
    it does not come from an index *)
Record line := mkLine { lname : name; lver : version; lfrom : option url }.
Inductive item := IVcs (u : url) | IPin (n : name) (v : version).
Record uv := mkUv {
  dry : index -> table -> list spec -> table -> option (list line);    (** env, specs, constraints *)
  full : index -> table -> list spec -> option table;                  (** [uv pip install specs] *)
  build : url -> option (name * version);                              (** what a VCS url builds *)
  fetch : index -> item -> bool }.                                     (** is it to be had? *)
Definition default_index : index := 0.

(** [uv pip install --no-deps items] *)
Fixpoint no_deps (U : uv) (idx : index) (env : table) (items : list item) : option table :=
  match items with
  | [] => Some env
  | i :: rest =>
      if fetch U idx i then
        match i with
        | IVcs u => match build U u with Some (n, v) => no_deps U idx (put env n v) rest | None => None end
        | IPin n v => no_deps U idx (put env n v) rest
        end
      else None
  end.

(** uv.py 118-148: the regular expression of line 146 wants the version to end the
    line.  The options of the caller (index_url, ...) are not passed on. *)
Definition resolve_plan (U : uv) (env : table) (specs : list spec) (pinned : table) : option table :=
  match dry U default_index env specs pinned with
  | None => None                                                       (** [check=True], line 139 *)
  | Some ls => Some (flat_map (fun l => match lfrom l with None => [(lname l, lver l)] | Some _ => [] end) ls)
  end.

(** uv.py 202-206: a dict comprehension, so the last distribution of a name counts *)
Definition installed (dists : table) : table := fold_left (fun d e => put d (fst e) (snd e)) dists [].

(** uv.py 150-195: (keep, to_resolve, pinned) *)
Fixpoint split_specs (inst : table) (specs : list spec) : list url * list spec * table :=
  match specs with
  | [] => ([], [], [])
  | s :: rest =>
      let '(keep, todo, pinned) := split_specs inst rest in
      match s with
      | Vcs u => (u :: keep, todo, pinned)
      | Named r =>
          match lookup inst (rname r) with
          | None => (keep, s :: todo, pinned)
          | Some v =>
              if match specifier r with [] => true | _ => false end then (keep, todo, (rname r, v) :: pinned)
              else match in_specifier v (specifier r) with
                   | Some true => (keep, todo, (rname r, v) :: pinned)
                   | _ => (keep, s :: todo, pinned)
                   end
          end
      end
  end.

(** uv.py 228-230 *)
Definition new (inst : table) (e : name * version) : bool :=
  match lookup inst (fst e) with
  | None => true
  | Some w => if version_eq_dec w (snd e) then false else true
  end.

(** uv.py 197-232 *)
Definition filter_packages (U : uv) (dists env : table) (specs : list spec) : option (list item) :=
  let inst := installed dists in
  let '(keep, todo, pinned) := split_specs inst specs in
  match todo with
  | [] => Some (map IVcs keep)
  | _ =>
      match resolve_plan U env todo pinned with
      | None => None
      | Some plan => Some (map IVcs keep ++ map (fun e => IPin (fst e) (snd e)) (filter (new inst) plan))
      end
  end.

(** uv.py 234-308: the environment afterwards; [None]: it raised (line 308) *)
Definition install_packages (U : uv) (idx : index) (dists env : table) (specs : list spec) (skip : bool) : option table :=
  match specs with
  | [] => Some env
  | _ =>
      if skip then
        match filter_packages U dists env specs with
        | None => None
        | Some [] => Some env
        | Some items => no_deps U idx env items
        end
      else full U idx env specs
  end.
