(** * Loading a message of which a part cannot be loaded

    Source: python/xoscar/serialization/core.pyx 839-945 ([deserialize] with its stack and its handling of exceptions), 127-152
    (Serializer.on_deserial_error), python/xoscar/backends/message.pyx 626-638 (MessageSerializer.on_deserial_error).

    Here [deserialize] is modelled with everything it does about exceptions; what the serializers do is abstract:
    [leaf] is _deserial_single (814-836) of a component without sub-components, given its buffers, [node] of one with, given
    the deserialized sub-components; both may change the context and return a value or raise.  A serializer's
    [on_deserial_error] gets the header and the number of the sub-component that failed and may give another
    exception.  Simplified: it does not raise itself (for messages: the header has the field of the id). *)
From Coq Require Import List Arith Bool Lia.
Import ListNotations.

Section Unwind.
  Variables Hd V E B Ctx : Type.
  Variable leaf : Ctx -> Hd -> list B -> (V + E) * Ctx.
  Variable node : Ctx -> Hd -> list V -> (V + E) * Ctx.
  Variable on_error : Hd -> nat -> E -> option E.

  (** Headers with their sub-components; a leaf with its number of buffers (873-875: final, or no sub-components) *)
  Inductive tree := Leaf (hd : Hd) (n : nat) | Node (hd : Hd) (first : tree) (others : list tree).

  (** 803-811 *)
  Record item := mkItem { i_head : Hd; i_subs : list tree; i_done : list V }.
  (** The local variables.  [last]: [deserialized], if [has_deserialized]. *)
  Record mach := mkMach { stack : list item; last : option V; exc : option E; ctx : Ctx; pos : nat }.

  Definition rewritten (hd : Hd) (i : nat) (e : E) : E := match on_error hd i e with Some e' => e' | None => e end.

  (** One turn of the loop, 884-940 *)
  Definition step (buffers : list B) (m : mach) : mach :=
    match stack m with
    | [] => m
    | it :: rest =>
        match last m, exc m with
        | None, Some e =>
            (* 890-901 *)
            mkMach rest None (Some (rewritten (i_head it) (length (i_done it)) e)) (ctx m) (pos m)
        | _, _ =>
            let done := match last m with Some v => i_done it ++ [v] | None => i_done it end in
            let it' := mkItem (i_head it) (i_subs it) done in
            match nth_error (i_subs it) (length done) with
            | None =>
                (* 904-916 *)
                match node (ctx m) (i_head it) done with
                | (inl v, c) => mkMach rest (Some v) (exc m) c (pos m)
                | (inr e, c) => mkMach rest None (Some e) c (pos m)
                end
            | Some (Leaf hd n) =>
                (* 921-931 *)
                match leaf (ctx m) hd (firstn n (skipn (pos m) buffers)) with
                | (inl v, c) => mkMach (it' :: rest) (Some v) (exc m) c (pos m + n)
                | (inr e, c) => mkMach (it' :: rest) None (Some e) c (pos m)
                end
            | Some (Node hd s ss) =>
                (* 932-940 *)
                mkMach (mkItem hd (s :: ss) [] :: it' :: rest) None (exc m) (ctx m) (pos m)
            end
        end
    end.

  (** The loop; [None]: not finished within [fuel] turns. *)
  Fixpoint loop (fuel : nat) (buffers : list B) (m : mach) : option mach :=
    match stack m with
    | [] => Some m
    | _ => match fuel with 0 => None | S f => loop f buffers (step buffers m) end
    end.

  (** 839-945.  The third case is impossible (deserialized would be None). *)
  Inductive result := Returned (v : V) | Raised (e : E) | Neither.
  Definition deserialize (fuel : nat) (buffers : list B) (c : Ctx) (t : tree) : option result :=
    match t with
    | Leaf hd n => Some (match fst (leaf c hd buffers) with inl v => Returned v | inr e => Raised e end)
    | Node hd s ss =>
        match loop fuel buffers (mkMach [mkItem hd (s :: ss) []] None None c 0) with
        | None => None
        | Some m => Some (match exc m, last m with Some e, _ => Raised e | None, Some v => Returned v | None, None => Neither end)
        end
    end.
End Unwind.

Arguments Leaf {Hd} hd n. Arguments Node {Hd} hd first others.
Arguments Returned {V E} v. Arguments Raised {V E} e. Arguments Neither {V E}.
Arguments mkItem {Hd V}. Arguments i_head {Hd V}. Arguments i_subs {Hd V}. Arguments i_done {Hd V}.
Arguments mkMach {Hd V E Ctx}. Arguments stack {Hd V E Ctx}. Arguments last {Hd V E Ctx}. Arguments exc {Hd V E Ctx}.
Arguments ctx {Hd V E Ctx}. Arguments pos {Hd V E Ctx}.

(** ** Messages: 599-604, 626-638 *)
Section Messages.
  Variables Id O Ex : Type.
  (** Headers: of a message, or of anything else (whose [on_deserial_error] is the default: it returns None) *)
  Inductive mhead := Message (id : Id) | Other (o : O).
  (** DeserializeMessageFailed(id) with its __cause__, or any other exception *)
  Inductive exn := Failed (id : Id) (cause : exn) | Plain (e : Ex).
  Definition message_error (hd : mhead) (i : nat) (e : exn) : option exn :=
    match hd with Message id => Some (Failed id e) | Other _ => None end.
End Messages.
Arguments Message {Id O} id. Arguments Other {Id O} o. Arguments Failed {Id Ex} id cause. Arguments Plain {Id Ex} e.
Arguments message_error {Id O Ex} hd i e.
