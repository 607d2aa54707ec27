(** TypeDispatcher.  Source: /repo/python/xoscar/_utils.pyx 39-110.

    Classes, names of serializers, import paths and handlers are numbers.  [mro c]
    is c.__mro__; [resolve p] is the class an import path leads to, None if the
    import or the attribute fails.

    Simplified: registering or unregistering a tuple of types (51-53, 58-60) is the
    sequence of the single operations; handlers are not None. *)
From Coq Require Import List Arith Bool.
From Verif Require Import Dict.
Import ListNotations.

(** A class or a NamedType(name, class). *)
Inductive key := Plain (c : nat) | Named (n c : nat).
Definition keyb (a b : key) : bool :=
  match a, b with
  | Plain c, Plain c' => c =? c'
  | Named n c, Named n' c' => (n =? n') && (c =? c')
  | _, _ => false
  end.

Section Dispatch.
  Variable mro : nat -> list nat.
  Variable resolve : nat -> option nat.

  Record st := {
    handlers : list (key * nat);      (** _handlers *)
    lazy : list (nat * nat);          (** _lazy_handlers, by import path *)
    inherit : list (key * nat)        (** _inherit_handlers *)
  }.
  (** 40-44 *)
  Definition init : st := {| handlers := []; lazy := []; inherit := [] |}.

  Inductive ev :=
  | ERegister (k : key) (v : nat) | ERegisterPath (p v : nat)
  | EUnregister (k : key) | EUnregisterPath (p : nat)
  | ELookup (k : key) | EReload.
  Inductive out := RDone | RFound (h : nat) | RKeyError | RImportError.

  (** 66-76: false if an import failed; then _lazy_handlers is kept, the classes
      before are registered. *)
  Fixpoint load (hs : list (key * nat)) (l : list (nat * nat)) : list (key * nat) * bool :=
    match l with
    | [] => (hs, true)
    | (p, h) :: l' =>
        match resolve p with
        | None => (hs, false)
        | Some c => load (gset keyb hs (Plain c) h) l'
        end
    end.
  Definition reload (s : st) : st * bool :=
    match load (handlers s) (lazy s) with
    | (hs, true) => ({| handlers := hs; lazy := []; inherit := inherit s |}, true)
    | (hs, false) => ({| handlers := hs; lazy := lazy s; inherit := inherit s |}, false)
    end.

  (** 88-95: the named type is tried before the class, class by class *)
  Definition search (k : key) : list key :=
    match k with
    | Plain c => map Plain (mro c)
    | Named n c => flat_map (fun c => [Named n c; Plain c]) (mro c)
    end.
  Fixpoint first_handler (hs : list (key * nat)) (l : list key) : option nat :=
    match l with
    | [] => None
    | k :: l' => match gget keyb hs k with Some h => Some h | None => first_handler hs l' end
    end.

  (** 78-102 *)
  Definition get_handler (s : st) (k : key) : st * out :=
    match gget keyb (handlers s) k with
    | Some h => (s, RFound h)
    | None =>
        match gget keyb (inherit s) k with
        | Some h => (s, RFound h)
        | None =>
            match reload s with
            | (s', false) => (s', RImportError)
            | (s', true) =>
                match first_handler (handlers s') (search k) with
                | Some h => ({| handlers := handlers s'; lazy := lazy s'; inherit := gset keyb (inherit s') k h |},
                             RFound h)
                | None => (s', RKeyError)
                end
            end
        end
    end.

  Definition step (s : st) (e : ev) : st * out :=
    match e with
    | ERegister k h =>       (* 48-55 *)
        ({| handlers := gset keyb (handlers s) k h; lazy := lazy s; inherit := inherit s |}, RDone)
    | ERegisterPath p h =>
        ({| handlers := handlers s; lazy := gset Nat.eqb (lazy s) p h; inherit := inherit s |}, RDone)
    | EUnregister k =>       (* 57-64: a class is never a key of _lazy_handlers *)
        ({| handlers := gdel keyb (handlers s) k; lazy := lazy s; inherit := [] |}, RDone)
    | EUnregisterPath p =>   (* 62-64: a path is never a key of _handlers *)
        ({| handlers := handlers s; lazy := gdel Nat.eqb (lazy s) p; inherit := [] |}, RDone)
    | ELookup k => get_handler s k
    | EReload =>             (* 107-110 *)
        let (s', ok) := reload s in (s', if ok then RDone else RImportError)
    end.

  (** What has happened, the newest event first. *)
  Inductive reach : st -> list (ev * out) -> Prop :=
  | r_init : reach init []
  | r_step : forall s h e s' r, reach s h -> step s e = (s', r) -> reach s' ((e, r) :: h).
End Dispatch.
