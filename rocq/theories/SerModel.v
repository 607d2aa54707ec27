(** Serialization of object graphs.
    Source: /repo/python/xoscar/serialization/core.pyx (line numbers below).

    The program's objects live in a heap: a list of objects, an address being an
    index.  A slot of a container holds either a value that the code treats as a
    primitive (_primitive_types 280-293 and str/bytes shorter than 1024,
    CollectionSerializer._serial_iterable 358-367), here [VP], or a reference.

    Objects are
    - leaves: bytes, memoryview, long str (295-341), pickled objects (265-278) and
      every other serializer that returns final=True; [leaf_head]/[leaf_bufs]
      stand for [serial] and [leaf_load] for [deserial] of that serializer;
    - lists, tuples and dictionaries (and subclasses, tag [ty] <> 0).  The slots of
      a dictionary are its keys followed by its values: the code too serializes
      keys, then values (491-497), and fills them in this order (508-513).

    Simplified / not modelled: dict subclasses whose __init__ takes only self
    (474-489, pickled inside the header); named serializers (context["serializer"]);
    a [context] argument that already contains objects; fury; the classes of
    subclass instances are called as [cls(items)] and give an object with exactly
    these items; a Placeholder as dictionary key (522-525), which gives [EKey]
    here.  The header is a Python tuple that is pickled later (FramingModel). *)
From Coq Require Import List Arith Bool ZArith Lia.
From Verif Require Import Dict.
Import ListNotations.

(** list, tuple, dict; 0: the builtin class, otherwise a subclass (376-379). *)
Inductive kind := KList (ty : nat) | KTuple (ty : nat) | KDict (ty : nat).

Section Ser.
  Variables P C H B : Type.
  Variable leaf_head : C -> H.
  Variable leaf_bufs : C -> list B.
  Variable leaf_load : H -> list B -> option C.

  Inductive val := VP (p : P) | VR (a : nat).
  Inductive obj := OLeaf (c : C) | ONode (k : kind) (vs : list val).
  Definition heap := list obj.

  (** *** Headers

      The part of a header tuple before the headers of the sub-components
      (605-639): serializer id, ordered id, number of subs, final flag, data.
      The data of a container is obj_list with None at the places listed in
      idx_to_propagate (369-381): here [None] marks such a place. *)
  Inductive head :=
  | HPrim (id : nat) (p : P)
  | HLeaf (id : nat) (h : H) (n : nat)
  | HEmpty (id : nat)
  | HRef (id : nat)
  | HNode (id : nat) (k : kind) (inline : list (option P)).
  Inductive tree := T (hd : head) (subs : list tree).

  (** *** Serializing *)

  (** [id_context_holder.d] (601-602) and the keys of [context]. *)
  Record sst := { d : list (nat * nat); ctx : list nat }.
  Definition s0 : sst := {| d := []; ctx := [] |}.
  Definition did (s : sst) (a : nat) : option nat := gget Nat.eqb (d s) a.
  Definition known (s : sst) (a : nat) : bool := existsb (Nat.eqb a) (ctx s).

  (** 631-635: the next ordered id is the size of the map *before* the insertion;
      inserting an address again does not make the map larger. *)
  Definition number (s : sst) (a : nat) (add : bool) : nat * sst :=
    let id := length (d s) in
    (id, {| d := gset Nat.eqb (d s) a id; ctx := if add then a :: ctx s else ctx s |}).

  Definition inline_of (v : val) : option P := match v with VP p => Some p | VR _ => None end.
  Definition refs (vs : list val) : list nat :=
    flat_map (fun v => match v with VP _ => [] | VR a => [a] end) vs.

  (** 605-639 with [serial] of the object's serializer.  [inl]: final, the
      buffers; [inr]: the sub-components.  [None]: no such object. *)
  Definition serial_single (h : heap) (s : sst) (a : nat) : option (head * (list B + list nat) * sst) :=
    match nth_error h a with
    | None => None
    | Some (ONode (KDict 0) []) =>
        (* 466-467: before the look-up in the context, and not entered there *)
        let '(id, s') := number s a false in Some (HEmpty id, inl [], s')
    | Some o =>
        if known s a then
          (* Placeholder, 384-386 and 628-630 *)
          Some (HRef (match did s a with Some id => id | None => 0 end), inl [], s)
        else
          let '(id, s') := number s a true in
          match o with
          | OLeaf c => Some (HLeaf id (leaf_head c) (length (leaf_bufs c)), inl (leaf_bufs c), s')
          | ONode k vs => Some (HNode id k (map inline_of vs), inr (refs vs), s')
          end
    end.

  (** 590-598 *)
  Record item := { it_head : head; it_subs : list nat; it_done : list tree }.
  (** The local variables of _serialize_with_stack; the last stack item comes first. *)
  Record mach := {
    m_stack : list item;
    m_ser : option tree;       (** [serialized] *)
    m_s : sst;
    m_bufs : list B;           (** [result_bufs_list] *)
    m_n : nat                  (** [num_total_serialized] *)
  }.

  (** One turn of the loop 663-692. *)
  Definition mstep (h : heap) (m : mach) : option mach :=
    match m_stack m with
    | [] => Some m
    | it :: rest =>
        let done := match m_ser m with Some t => it_done it ++ [t] | None => it_done it end in
        let it' := {| it_head := it_head it; it_subs := it_subs it; it_done := done |} in
        match nth_error (it_subs it) (length done) with
        | None =>
            Some {| m_stack := rest; m_ser := Some (T (it_head it) done); m_s := m_s m;
                    m_bufs := m_bufs m; m_n := S (m_n m) |}
        | Some a =>
            match serial_single h (m_s m) a with
            | None => None
            | Some (hd, inl bs, s') =>
                Some {| m_stack := it' :: rest; m_ser := Some (T hd []); m_s := s';
                        m_bufs := m_bufs m ++ bs; m_n := S (m_n m) |}
            | Some (hd, inr [], s') =>
                Some {| m_stack := it' :: rest; m_ser := Some (T hd []); m_s := s';
                        m_bufs := m_bufs m; m_n := S (m_n m) |}
            | Some (hd, inr subs, s') =>
                Some {| m_stack := {| it_head := hd; it_subs := subs; it_done := [] |} :: it' :: rest;
                        m_ser := None; m_s := s'; m_bufs := m_bufs m; m_n := S (m_n m) |}
            end
        end
    end.

  Inductive outcome := Finished (m : mach) | Overflow (m : mach).

  (** 663-694; [fuel] bounds the number of turns, [None]: not finished yet. *)
  Fixpoint mloop (fuel : nat) (h : heap) (num_overflow : Z) (m : mach) : option outcome :=
    match m_stack m with
    | [] => Some (Finished m)
    | _ =>
        match fuel with
        | 0 => None
        | S f =>
            match mstep h m with
            | None => None
            | Some m' =>
                if ((0 <? num_overflow) && (num_overflow <? Z.of_nat (m_n m')))%Z
                then Some (Overflow m')
                else mloop f h num_overflow m'
            end
        end
    end.

  (** 696-705: extra_meta (here the value of "_N"), header, buffers. *)
  Definition output := (option nat * tree * list B)%type.
  Definition result_of (is_resume : bool) (m : mach) : option output :=
    match m_ser m with
    | Some t => Some (if is_resume then Some (m_n m) else None, t, m_bufs m)
    | None => None
    end.

  (** The first part of serialize and serialize_with_spawn (729-738, 772-780):
      a leaf, or the machine to start. *)
  Definition start (h : heap) (v : val) : option (output + mach) :=
    match v with
    | VP p => Some (inl (None, T (HPrim 0 p) [], []))
    | VR a =>
        match serial_single h s0 a with
        | None => None
        | Some (hd, inl bs, _) => Some (inl (None, T hd [], bs))
        | Some (hd, inr [], _) => Some (inl (None, T hd [], []))
        | Some (hd, inr subs, s) =>
            Some (inr {| m_stack := [{| it_head := hd; it_subs := subs; it_done := [] |}];
                         m_ser := None; m_s := s; m_bufs := []; m_n := 0 |})
        end
    end.

  (** 708-742 *)
  Definition serialize (fuel : nat) (h : heap) (v : val) : option output :=
    match start h v with
    | None => None
    | Some (inl o) => Some o
    | Some (inr m) =>
        match mloop fuel h 0 m with
        | Some (Finished m') => result_of false m'
        | _ => None
        end
    end.

  (** 745-800: on overflow the rest runs in another thread with the same stack. *)
  Definition serialize_with_spawn (fuel : nat) (h : heap) (v : val) (threshold : Z) : option output :=
    match start h v with
    | None => None
    | Some (inl o) => Some o
    | Some (inr m) =>
        match mloop fuel h threshold m with
        | Some (Finished m') => result_of false m'
        | Some (Overflow m') =>
            match mloop fuel h 0 m' with
            | Some (Finished m2) => result_of (0 <? m_n m') m2
            | _ => None
            end
        | None => None
        end
    end.

  (** *** Deserializing *)

  (** [DPh id] is the Placeholder object for the ordered id. *)
  Inductive dval := DP (p : P) | DR (a : nat) | DPh (id : nat).
  Inductive dobj := DLeaf (c : C) | DNode (k : kind) (ws : list dval).

  (** An entry of [context]: an object, or a Placeholder with its callbacks, each
      of which replaces one slot of one object. *)
  Inductive centry := CV (w : dval) | CPh (cbs : list (nat * nat)).
  Record dst := { dh : list dobj; cx : list (nat * centry) }.
  Definition t0 : dst := {| dh := []; cx := [] |}.

  Inductive derror :=
  | EAssert       (** 411: Placeholder in a tuple *)
  | EKey          (** Placeholder as dictionary key: not modelled *)
  | ELoad         (** the leaf serializer failed *)
  | ECorrupt.     (** header and subs do not fit *)
  Inductive dres (A : Type) := DOk (a : A) | DErr (e : derror).
  Arguments DOk {A} a.
  Arguments DErr {A} e.

  (** 391-401 *)
  Fixpoint fill (inline : list (option P)) (subs : list dval) : option (list dval) :=
    match inline, subs with
    | [], [] => Some []
    | Some p :: r, _ => option_map (cons (DP p)) (fill r subs)
    | None :: r, w :: subs' => option_map (cons w) (fill r subs')
    | _, _ => None
    end.

  Definition is_ph (w : dval) : bool := match w with DPh _ => true | _ => false end.

  Fixpoint upd {A} (l : list A) (i : nat) (x : A) : list A :=
    match l, i with
    | [], _ => []
    | _ :: l', 0 => x :: l'
    | y :: l', S i' => y :: upd l' i' x
    end.

  (** 435-438 and 526-529: append a callback to the Placeholder in slot [i]. *)
  Fixpoint register (c : list (nat * centry)) (a i : nat) (ws : list dval) : list (nat * centry) :=
    match ws with
    | [] => c
    | DPh id :: ws' =>
        let cbs := match gget Nat.eqb c id with Some (CPh l) => l | _ => [] end in
        register (gset Nat.eqb c id (CPh (cbs ++ [(a, i)]))) a (S i) ws'
    | _ :: ws' => register c a (S i) ws'
    end.

  (** A callback: [result.__setitem__(idx, v)], [ret[key] = v]. *)
  Definition run_cb (w : dval) (h : list dobj) (cb : nat * nat) : list dobj :=
    match nth_error h (fst cb) with
    | Some (DNode k ws) => upd h (fst cb) (DNode k (upd ws (snd cb) w))
    | _ => h
    end.

  (** 828-835 *)
  Definition set_context (t : dst) (id : nat) (w : dval) : dst :=
    let h := match gget Nat.eqb (cx t) id with
             | Some (CPh cbs) => fold_left (run_cb w) cbs (dh t)
             | _ => dh t
             end in
    {| dh := h; cx := gset Nat.eqb (cx t) id (CV w) |}.

  Definition new_obj (t : dst) (id : nat) (o : dobj) : dval * dst :=
    let w := DR (length (dh t)) in
    (w, set_context {| dh := dh t ++ [o]; cx := cx t |} id w).

  (** 407-418, 424-439, 499-533: the checks, then the object is made, callbacks
      registered and the context updated. *)
  Definition deserial_node (t : dst) (id : nat) (k : kind) (ws : list dval) : dres (dval * dst) :=
    let make :=
      let a := length (dh t) in
      DOk (new_obj {| dh := dh t; cx := register (cx t) a 0 ws |} id (DNode k ws)) in
    match k with
    | KTuple _ => if existsb is_ph ws then DErr EAssert else make
    | KList _ => make
    | KDict _ => if existsb is_ph (firstn (Nat.div2 (length ws)) ws) then DErr EKey else make
    end.

  (** 814-836.  [subs] are the sub-components of a container, [bs] the buffers of
      a leaf. *)
  Definition deserial_single (t : dst) (hd : head) (subs : list dval) (bs : list B) : dres (dval * dst) :=
    match hd with
    | HPrim id p => DOk (DP p, set_context t id (DP p))
    | HLeaf id h _ =>
        match leaf_load h bs with
        | Some c => DOk (new_obj t id (DLeaf c))
        | None => DErr ELoad
        end
    | HEmpty id => DOk (new_obj t id (DNode (KDict 0) []))
    | HRef id =>
        match gget Nat.eqb (cx t) id with
        | Some (CV w) => DOk (w, t)
        | Some (CPh cbs) =>
            (* the callbacks are run with the Placeholder itself *)
            DOk (DPh id, {| dh := fold_left (run_cb (DPh id)) cbs (dh t); cx := cx t |})
        | None => DOk (DPh id, {| dh := dh t; cx := gset Nat.eqb (cx t) id (CPh []) |})
        end
    | HNode id k inline =>
        match fill inline subs with
        | Some ws => deserial_node t id k ws
        | None => DErr ECorrupt
        end
    end.

  (** The first four fields of a header (873, 917). *)
  Definition is_leaf (t : tree) : bool :=
    match t with T hd subs =>
      match hd with HNode _ _ _ => match subs with [] => true | _ => false end | _ => true end
    end.
  Definition num_bufs (hd : head) : nat := match hd with HLeaf _ _ n => n | _ => 0 end.

  Record ditem := { di_head : head; di_subs : list tree; di_done : list dval }.
  Record dmach := {
    q_stack : list ditem;
    q_last : option dval;      (** [deserialized], if [has_deserialized] *)
    q_t : dst;
    q_pos : nat                (** [buf_pos] *)
  }.

  (** One turn of the loop 886-940.  Simplified: an exception ends it at once (the
      code unwinds the stack calling on_deserial_error, 893-908, which returns
      None for these serializers). *)
  Definition dstep (buffers : list B) (q : dmach) : dres dmach :=
    match q_stack q with
    | [] => DOk q
    | it :: rest =>
        let done := match q_last q with Some w => di_done it ++ [w] | None => di_done it end in
        let it' := {| di_head := di_head it; di_subs := di_subs it; di_done := done |} in
        match nth_error (di_subs it) (length done) with
        | None =>
            match deserial_single (q_t q) (di_head it) done [] with
            | DErr e => DErr e
            | DOk (w, t) => DOk {| q_stack := rest; q_last := Some w; q_t := t; q_pos := q_pos q |}
            end
        | Some tr =>
            match tr with T hd subs =>
              if is_leaf tr then
                match deserial_single (q_t q) hd [] (firstn (num_bufs hd) (skipn (q_pos q) buffers)) with
                | DErr e => DErr e
                | DOk (w, t) => DOk {| q_stack := it' :: rest; q_last := Some w; q_t := t;
                                       q_pos := q_pos q + num_bufs hd |}
                end
              else
                DOk {| q_stack := {| di_head := hd; di_subs := subs; di_done := [] |} :: it' :: rest;
                       q_last := None; q_t := q_t q; q_pos := q_pos q |}
            end
        end
    end.

  Fixpoint dloop (fuel : nat) (buffers : list B) (q : dmach) : option (dres dmach) :=
    match q_stack q with
    | [] => Some (DOk q)
    | _ =>
        match fuel with
        | 0 => None
        | S f => match dstep buffers q with
                 | DErr e => Some (DErr e)
                 | DOk q' => dloop f buffers q'
                 end
        end
    end.

  (** 839-944: the heap made, the value returned and the number of buffers used. *)
  Definition deserialize (fuel : nat) (tr : tree) (buffers : list B) : option (dres (list dobj * dval * nat)) :=
    match tr with T hd subs =>
      if is_leaf tr then
        match deserial_single t0 hd [] buffers with
        | DErr e => Some (DErr e)
        | DOk (w, t) => Some (DOk (dh t, w, num_bufs hd))
        end
      else
        match dloop fuel buffers {| q_stack := [{| di_head := hd; di_subs := subs; di_done := [] |}];
                                    q_last := None; q_t := t0; q_pos := 0 |} with
        | None => None
        | Some (DErr e) => Some (DErr e)
        | Some (DOk q) =>
            match q_last q with
            | Some w => Some (DOk (dh (q_t q), w, q_pos q))
            | None => Some (DErr ECorrupt)
            end
        end
    end.
End Ser.

Arguments VP {P} p. Arguments VR {P} a.
Arguments OLeaf {P C} c. Arguments ONode {P C} k vs.
Arguments HPrim {P H} id p. Arguments HLeaf {P H} id h n. Arguments HEmpty {P H} id.
Arguments HRef {P H} id. Arguments HNode {P H} id k inline.
Arguments T {P H} hd subs.
Arguments DP {P} p. Arguments DR {P} a. Arguments DPh {P} id.
Arguments DLeaf {P C} c. Arguments DNode {P C} k ws.
Arguments CV {P} w. Arguments CPh {P} cbs.
Arguments DOk {A} a. Arguments DErr {A} e.
Arguments Finished {P H B} m. Arguments Overflow {P H B} m.
