(** * Model of actor references

    Source: python/xoscar/core.pyx 56-153 (local pool map, create_actor_ref, ActorRef),
    245-313 (LocalActorRef and its methods), python/xoscar/_utils.pyx 196-235 (the argument
    forms of create_actor_ref), python/xoscar/backends/pool.py 164-176, 610-662 (which actors a
    pool holds), python/xoscar/backends/context.py 209-229.

    A process holds pools (by external address) and actor objects.  Destroying an actor takes
    it out of its pool; the object itself goes away at some later moment, when nothing refers
    to it any more (running methods, reference cycles, user variables): [Collect].
    A uid is bytes, or any other hashable object [UObj] the user passed (strings are encoded
    by the reference, ASCII here).  The debug option log_cycle_send, which switches local
    references off, is off. *)
From Coq Require Import String Ascii.
From Coq Require Import List Bool Arith Lia.
From Verif Require Import PyStr.
Import ListNotations.
Open Scope list_scope.
Open Scope nat_scope.

(** Python objects that can appear as arguments or as things compared with a reference. *)
Inductive uid := UBytes (b : text) | UObj (n : nat).
Inductive uidarg := AStr (t : text) | ABytes (b : text) | AObj (n : nat).
(** core.pyx 117-119: [if isinstance(uid, str): uid = uid.encode()] *)
Definition encode (u : uidarg) : uid :=
  match u with AStr t => UBytes t | ABytes b => UBytes b | AObj n => UObj n end.

(** core.pyx 112-123, 245-249: [kind] is the Python type; a LocalActorRef also holds a weak
    reference to an actor object (its number).  [address] may be None. *)
Inductive kind := Remote | Local (weak : nat).
Record ref := { r_kind : kind; r_addr : option text; r_uid : uid; r_prox : option (list text) }.
Definition ActorRef (a : option text) (u : uidarg) (p : option (list text)) : ref :=
  {| r_kind := Remote; r_addr := a; r_uid := encode u; r_prox := p |}.

(** An actor object: pool.py 623-624 set [uid] and [address] when it is created. *)
Record obj := { o_addr : text; o_uid : text; o_alive : bool }.
Record proc := {
  pools : list text;                       (* core.pyx 41 [_local_pool_map], live pools *)
  actors : list ((text * text) * nat);     (* pool.py [_actors] of these pools *)
  objs : list obj }.

Definition key_eqb (k l : text * text) : bool := text_eqb (fst k) (fst l) && text_eqb (snd k) (snd l).
Fixpoint find_actor (k : text * text) (l : list ((text * text) * nat)) : option nat :=
  match l with [] => None | (k', o) :: l => if key_eqb k k' then Some o else find_actor k l end.
Definition remove_actor (k : text * text) (l : list ((text * text) * nat)) :=
  filter (fun e => negb (key_eqb k (fst e))) l.

(** core.pyx 56-71 [_get_local_actor]: the keys of [_actors] are bytes (context.py passes the
    uid of a new actor through to_binary), so a str or another object is never found. *)
Definition get_local_actor (p : proc) (a : option text) (u : uidarg) : option nat :=
  match a, u with
  | Some a, ABytes b => if existsb (text_eqb a) (pools p) then find_actor (a, b) (actors p) else None
  | _, _ => None
  end.
(** core.pyx 245-249 [LocalActorRef(actor)] *)
Definition LocalActorRef (p : proc) (o : nat) : option ref :=
  match nth_error (objs p) o with
  | Some x => Some {| r_kind := Local o; r_addr := Some (o_addr x); r_uid := UBytes (o_uid x); r_prox := None |}
  | None => None
  end.
(** core.pyx 98-109 [create_actor_ref] *)
Definition create_actor_ref (p : proc) (a : option text) (u : uidarg) (px : option (list text)) : ref :=
  match get_local_actor p a u with
  | Some o => match LocalActorRef p o with Some r => r | None => ActorRef a u px end
  | None => ActorRef a u px
  end.

(** core.pyx 128-129 [__reduce__]: pickling a reference keeps these three things. *)
Definition reduce (r : ref) : option text * uidarg * option (list text) :=
  (r_addr r, match r_uid r with UBytes b => ABytes b | UObj n => AObj n end, r_prox r).
Definition unpickle (p : proc) (x : option text * uidarg * option (list text)) : ref :=
  let '(a, u, px) := x in create_actor_ref p a u px.

(** core.pyx 141-148 [__hash__] and [__eq__]; [Other] is a value of any other type. *)
Inductive value := VRef (r : ref) | Other (n : nat).
Definition addr_eqb (a b : option text) : bool :=
  match a, b with Some a, Some b => text_eqb a b | None, None => true | _, _ => false end.
Definition uid_eqb (u v : uid) : bool :=
  match u, v with UBytes a, UBytes b => text_eqb a b | UObj n, UObj m => Nat.eqb n m | _, _ => false end.
Definition py_eq (r : ref) (v : value) : bool :=
  match v with
  | VRef s => addr_eqb (r_addr r) (r_addr s) && uid_eqb (r_uid r) (r_uid s)
  | Other _ => false
  end.
Definition py_hash (H : option text * uid -> nat) (r : ref) : nat := H (r_addr r, r_uid r).

(** ** The process over time *)
Inductive op :=
| OpenPool (a : text) | ClosePool (a : text)
| Create (a b : text) | Destroy (a b : text) | Collect (o : nat).
Definition kill (o : nat) (l : list obj) : list obj :=
  firstn o l ++ match skipn o l with
                | [] => []
                | x :: t => {| o_addr := o_addr x; o_uid := o_uid x; o_alive := false |} :: t
                end.
Definition exec (p : proc) (x : op) : proc :=
  match x with
  | OpenPool a =>
      (* pool.py 170-173: a pool at an all-zero address is not registered *)
      if existsb (text_eqb a) (pools p) then p else {| pools := a :: pools p; actors := actors p; objs := objs p |}
  | ClosePool a =>
      (* core.pyx 78-80: the weak reference to the pool dies *)
      {| pools := filter (fun b => negb (text_eqb a b)) (pools p);
         actors := filter (fun e => negb (text_eqb a (fst (fst e)))) (actors p); objs := objs p |}
  | Create a b =>
      (* pool.py 616-625 *)
      if existsb (text_eqb a) (pools p) then
        match find_actor (a, b) (actors p) with
        | Some _ => p
        | None => {| pools := pools p; actors := ((a, b), length (objs p)) :: actors p;
                     objs := objs p ++ [{| o_addr := a; o_uid := b; o_alive := true |}] |}
        end
      else p
  | Destroy a b =>
      (* pool.py 652-657 *)
      {| pools := pools p; actors := remove_actor (a, b) (actors p); objs := objs p |}
  | Collect o =>
      (* only objects that no pool holds *)
      if existsb (fun e => Nat.eqb o (snd e)) (actors p) then p
      else {| pools := pools p; actors := actors p; objs := kill o (objs p) |}
  end.
Definition empty : proc := {| pools := []; actors := []; objs := [] |}.
Definition run (h : list op) : proc := fold_left exec h empty.

(** ** Calls *)
Inductive outcome := RunsOn (o : nat) | ActorNotExist.
Definition alive (p : proc) (o : nat) : bool :=
  match nth_error (objs p) o with Some x => o_alive x | None => false end.
(** core.pyx 308-318 with 251-257: the method of a local reference runs on the object of the
    weak reference if that is still there, otherwise on the actor now in the pool (and the weak
    reference is renewed).  A remote reference sends a message: pool.py 681-690 looks the uid up
    in the pool. *)
Definition call (p : proc) (r : ref) : outcome * ref :=
  let in_pool := match r_uid r with UBytes b => get_local_actor p (r_addr r) (ABytes b) | UObj _ => None end in
  match r_kind r with
  | Local w =>
      if alive p w then (RunsOn w, r)
      else match in_pool with
           | Some o => (RunsOn o, {| r_kind := Local o; r_addr := r_addr r; r_uid := r_uid r; r_prox := r_prox r |})
           | None => (ActorNotExist, r)
           end
  | Remote => (match in_pool with Some o => RunsOn o | None => ActorNotExist end, r)
  end.

(** ** _utils.pyx 196-235: the argument forms of the public [actor_ref] / [create_actor_ref].
    [PText] is a str or bytes object (both give the same address).  Uids that are themselves
    references or lists are not represented (the model says TypeError there, the code would make
    a reference that no pool can answer). *)
Inductive pos := PText (t : text) (is_bytes : bool) | PRef (r : ref) | PProx (l : list text) | PObj (n : nat) | PNone.
Record kwargs := { k_addr : option text; k_uid : option uidarg; k_prox : option (list text); k_other : bool }.
Definition as_uid (x : pos) : option uidarg :=
  match x with PText t true => Some (ABytes t) | PText t false => Some (AStr t) | PObj n => Some (AObj n) | _ => None end.
Definition as_prox (x : pos) : option (option (list text)) :=
  match x with PProx l => Some (Some l) | PNone => Some None | _ => None end.
Inductive made := Made (r : ref) | ValueError | TypeError.
(** [if address:] is false for None and for the empty string *)
Definition truthy (a : option text) : bool := match a with Some (_ :: _) => true | _ => false end.
Definition api_ref (args : list pos) (k : kwargs) : made :=
  if k_other k then ValueError
  else
    let finish (a : option text) (u : option uidarg) (px : option (list text)) :=
      match u with None => ValueError | Some u => Made (ActorRef a u px) end in
    match args with
    | [PText a _; u] => if truthy (k_addr k) then ValueError else
        match u with
        | PNone => ValueError
        | _ => match as_uid u with Some u => finish (Some a) (Some u) (k_prox k) | None => TypeError end
        end
    | [PText a _; u; px] => if truthy (k_addr k) then ValueError else
        match u with
        | PNone => ValueError
        | _ => match as_uid u, as_prox px with Some u, Some px => finish (Some a) (Some u) px | _, _ => TypeError end
        end
    | [PRef r] =>
        let a := if truthy (k_addr k) then k_addr k else r_addr r in
        Made {| r_kind := Remote; r_addr := a; r_uid := r_uid r; r_prox := r_prox r |}
    | [PNone] => ValueError
    | [x] => match as_uid x with Some u => finish (k_addr k) (Some u) (k_prox k) | None => TypeError end
    | _ => finish (k_addr k) (k_uid k) (k_prox k)
    end.
