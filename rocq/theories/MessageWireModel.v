(** * A message as an object of the program, and as it is rebuilt by the receiver

    Source: python/xoscar/backends/message.pyx 607-624 (MessageSerializer.serial, deserial) as one of the serializers of
    python/xoscar/serialization/core.pyx 605-639, 814-836, on top of MessageModel (header tuple and sub-components of each
    message class) and SerModel (the heap of objects).

    MessageSerializer returns a header tuple, which goes inline into the serialized header, and a list of
    sub-components, which are serialized one after the other: for _serial_single and deserial_single this is
    what a container does that holds an inline value and some references.  So a message is here an object of the heap of
    its own class, with the header tuple in its first slot and the sub-components in the others.
    Simplified: sub-components that are primitives go inline, too (in the code each has a header of its own); classes
    (the type of an error, the class of an actor) count as primitives. *)
From Coq Require Import List Arith Bool ZArith.
From Verif Require Import SerModel MessageModel.
Import ListNotations.

(** The class tag of messages among the classes of SerModel *)
Definition message_class : kind := KTuple 1.

(** What is pickled inline (SerModel's [P]): a header tuple, or a primitive. *)
Inductive payload := Header (t : list MessageModel.val) | Plain (v : MessageModel.val).
Definition primitive (v : MessageModel.val) : bool :=
  match v with VNone | VInt _ | VStr _ | VBytes _ | VType _ => true | _ => false end.

Section Wire.
  Variables P C : Type.
  Variable payload_of : P -> payload.
  Notation heap := (heap P C).
  Notation sval := (SerModel.val P).
  Notation mval := MessageModel.val.

  (** How the message code sees a value of the program: objects are only passed
      on ([VObj] with the address), but it checks for tuples (CreateActorMessage.args, 325) and dicts (kwargs). *)
  Definition item (v : sval) : option mval :=
    match v with
    | VP p => match payload_of p with Plain v => if primitive v then Some v else None | Header _ => None end
    | VR a => Some (VObj a)
    end.
  Fixpoint items (vs : list sval) : option (list mval) :=
    match vs with
    | [] => Some []
    | v :: vs' => match item v, items vs' with Some x, Some xs => Some (x :: xs) | _, _ => None end
    end.
  Definition view (h : heap) (v : sval) : option mval :=
    match v with
    | VP _ => item v
    | VR a =>
        match nth_error h a with
        | Some (ONode (KTuple 0) vs) => option_map VTuple (items vs)
        | Some (ONode (KDict 0) _) => Some (VDict a)
        | Some _ => Some (VObj a)
        | None => None
        end
    end.
  Fixpoint views (h : heap) (vs : list sval) : option (list mval) :=
    match vs with
    | [] => Some []
    | v :: vs' => match view h v, views h vs' with Some x, Some xs => Some (x :: xs) | _, _ => None end
    end.

  (** The header tuple and the sub-components of the object [v] *)
  Definition parts (h : heap) (v : sval) : option (list mval * list mval) :=
    match v with
    | VR a =>
        match nth_error h a with
        | Some (ONode (KTuple 1) (VP p :: vs)) =>
            match payload_of p, views h vs with Header t, Some subs => Some (t, subs) | _, _ => None end
        | _ => None
        end
    | VP _ => None
    end.

  (** 610-616: [v] is the message [m] at the sender *)
  Definition is_message (h : heap) (v : sval) (m : msg) : Prop :=
    exists w, parts h v = Some w /\ serial m = Ok w.
  (** 618-624: what the receiver makes of the object *)
  Definition received (h : heap) (v : sval) : option (res msg) :=
    match parts h v with Some (t, subs) => Some (deserial t subs) | None => None end.
End Wire.
