(** * BackendModel: which backend serves an address

    Models [register_backend] and [get_backend] (/repo/python/xoscar/backend.py 50-67), [create_actor_pool] up to the call of
    the backend (/repo/python/xoscar/api.py 173-182), [setup_cluster] (api.py 312-324) and
    [ClientActorContext._get_backend_context] (/repo/python/xoscar/context.pyx 256-268), through which a process that is no
    pool makes its calls.

    Of Python's [urlparse] only the scheme is modelled: what stands before the first colon, lower-cased, if it is not
    empty, begins with a letter and consists of letters, digits, '+', '-' and '.'.  Simplifications: leading blanks and control characters,
    which newer Pythons strip, do not occur, nor do brackets that make urlparse raise; a context and a driver are identified
    with the backend whose classes they are; a driver's own errors are left out. *)
From Coq Require Import List Bool String Ascii Arith.
Import ListNotations.

Definition between (lo hi c : ascii) : bool := (nat_of_ascii lo <=? nat_of_ascii c) && (nat_of_ascii c <=? nat_of_ascii hi).
Definition upper_case (c : ascii) : bool := between "A" "Z" c.
Definition letter (c : ascii) : bool := upper_case c || between "a" "z" c.
Definition scheme_char (c : ascii) : bool := letter c || between "0" "9" c || existsb (Ascii.eqb c) ["+"; "-"; "."]%char.
Definition lower_char (c : ascii) : ascii := if upper_case c then ascii_of_nat (nat_of_ascii c + 32) else c.
Fixpoint lower (s : string) : string := match s with EmptyString => EmptyString | String c t => String (lower_char c) (lower t) end.
Fixpoint all_chars (f : ascii -> bool) (s : string) : bool := match s with EmptyString => true | String c t => f c && all_chars f t end.
(** url[:url.find(':')]; None: there is no colon *)
Fixpoint before_colon (s : string) : option string :=
  match s with
  | EmptyString => None
  | String c t => if Ascii.eqb c ":" then Some EmptyString else option_map (String c) (before_colon t)
  end.
(** urlparse(address).scheme *)
Definition url_scheme (s : string) : string :=
  match before_colon s with
  | Some (String c t) => if letter c && all_chars scheme_char (String c t) then lower (String c t) else EmptyString
  | _ => EmptyString
  end.
(** sub in s *)
Fixpoint occurs (sub s : string) : bool := prefix sub s || match s with EmptyString => false | String _ t => occurs sub t end.
(** context.pyx 259-262; api.py 175-178 and 317-320 *)
Definition scheme_of (address : string) : option string :=
  if occurs "://" address then match url_scheme address with EmptyString => None | s => Some s end else None.

Definition key_eqb (a b : option string) : bool :=
  match a, b with None, None => true | Some x, Some y => String.eqb x y | _, _ => false end.
(** A dict: the last binding is first. *)
Definition dict := list (option string * nat).
Fixpoint lookup (d : dict) (k : option string) : option nat :=
  match d with [] => None | (k', v) :: d' => if key_eqb k' k then Some v else lookup d' k end.

(** _scheme_to_backend_cls, and the _backend_contexts of the client context *)
Record state := mkSt { table : dict; contexts : dict }.
Inductive error := KeyError | ValueError.
Inductive op :=
| Register (names : list (option string)) (b : nat)
| Call (address : option string)          (* any call through the client context *)
| CreatePool (address : option string)
| Setup (nodes : list (option string * nat)).   (* address to resources *)
Inductive outcome :=
| Done
| By (b : nat) (address : string)
| Told (calls : list (nat * list (string * nat))) (e : option error)   (* the calls of drivers, and the error after them *)
| Failed (e : error).

(** context.pyx 256-268 *)
Definition get_backend_context (s : state) (address : string) : state * outcome :=
  let k := scheme_of address in
  match lookup (contexts s) k with
  | Some b => (s, By b address)
  | None => match lookup (table s) k with
            | Some b => (mkSt (table s) ((k, b) :: contexts s), By b address)
            | None => (s, Failed KeyError)
            end
  end.

(** api.py 313-322: the groups, in the order in which their schemes came first; None: an address is None. *)
Definition groups := list (option string * list (string * nat)).
Fixpoint put (g : groups) (k : option string) (node : string * nat) : groups :=
  match g with
  | [] => [(k, [node])]
  | (k', l) :: g' => if key_eqb k' k then (k', l ++ [node]) :: g' else (k', l) :: put g' k node
  end.
Fixpoint group (g : groups) (nodes : list (option string * nat)) : option groups :=
  match nodes with
  | [] => Some g
  | (None, _) :: _ => None
  | (Some a, r) :: rest => group (put g (scheme_of a) (a, r)) rest
  end.
(** 323-324 *)
Fixpoint tell (t : dict) (g : groups) : list (nat * list (string * nat)) * option error :=
  match g with
  | [] => ([], None)
  | (k, l) :: g' => match lookup t k with
                    | None => ([], Some KeyError)
                    | Some b => let '(calls, e) := tell t g' in ((b, l) :: calls, e)
                    end
  end.

Definition step (s : state) (o : op) : state * outcome :=
  match o with
  | Register names b => (mkSt (rev (map (fun n => (n, b)) names) ++ table s) (contexts s), Done)   (* backend.py 53-63 *)
  | Call None => (s, Failed ValueError)
  | Call (Some a) => get_backend_context s a
  | CreatePool None => (s, Failed ValueError)
  | CreatePool (Some a) => (s, match lookup (table s) (scheme_of a) with Some b => By b a | None => Failed KeyError end)
  | Setup nodes => (s, match group [] nodes with None => Failed ValueError | Some g => let '(c, e) := tell (table s) g in Told c e end)
  end.
Fixpoint run (s : state) (ops : list op) : state * list outcome :=
  match ops with
  | [] => (s, [])
  | o :: rest => let '(s1, r) := step s o in let '(s2, rs) := run s1 rest in (s2, r :: rs)
  end.
Definition start : state := mkSt [] [].
