(** * CopyConcModel: several copy_to at the same time, into buffers and files that come and go

    Models, on the receiving side, python/xoscar/core.pyx 593-664 ([BufferRef], [FileObjectRef]:
    the weak dictionaries from references to objects) and python/xoscar/backends/pool.py 526-537
    (the two handlers) with 568-594 and 428-445 (messages of one channel are taken up in the order
    they arrive, one task each); on the sending side python/xoscar/context.pyx 182-214
    ([buffer_ref], [file_object_ref]), 332-352 ([copy_to]) and
    python/xoscar/backends/context.py 353-440 with core.py 146-170 (the messages of one copy are
    sent one after the other, each after the reply to the one before, which is not looked at).

    How a copy is split into messages is [messages] and [fmessages] of CopyModel (C22 - C24).

    Simplifications: the handler of buffers has no [await], so a message takes effect at once; the
    handler of files awaits each write.  Object and copy identities are numbers; a reference gets a
    uid that was never used before (32 random bytes).  [Gone]: nobody in the receiving process uses
    the object any more.  [Own]: the process itself writes.  A file is the list of the pieces
    written to it, with the copy each one is from.  A connection does not fail (C22, C08).  UCX:
    C63. *)
From Coq Require Import List Arith Bool.
From Verif Require Import CopyModel.
Import ListNotations.

Section Conc.
Context {A : Type}.
Notation buf := (buf A).

Inductive obj := Buffer (b : buf) | File (ws : list (option nat * buf)).
Inductive cell := Unborn | Live (x : obj) | Dead.
Inductive msg := BufMsg (ps : list (piece A)) | FileMsg (ps : list (fpiece A)).
Inductive status := Active | Finished | Cancelled.
(** What became of the message that was sent last. *)
Inductive flight := Idle | OnWire (m : msg) | Busy (ps : list (fpiece A)) | Handled.
Record copy := mkC { chan : nat; todo : list msg; flying : flight; state : status }.

Record st := mkSt {
  heap : nat -> cell;
  bufs : nat -> option nat;     (** [BufferRef._ref_to_buffers]: uid to object *)
  fls : nat -> option nat;      (** [FileObjectRef._ref_to_fileobjs] *)
  wire : nat -> list nat;       (** messages not yet taken up, per channel: the copies they are from *)
  copies : nat -> option copy }.

Definition upd {X} (m : nat -> X) (k : nat) (x : X) : nat -> X := fun j => if j =? k then x else m j.
Definition set_heap s o x := mkSt (upd (heap s) o x) (bufs s) (fls s) (wire s) (copies s).
Definition set_copy s c k := mkSt (heap s) (bufs s) (fls s) (wire s) (upd (copies s) c (Some k)).
Definition set_wire s h w := mkSt (heap s) (bufs s) (fls s) (upd (wire s) h w) (copies s).

(** core.pyx 610-612 and 649-651; [None]: KeyError (a weak dictionary drops dead objects). *)
Definition get_buffer (s : st) (u : nat) : option (nat * buf) :=
  match bufs s u with
  | Some o => match heap s o with Live (Buffer b) => Some (o, b) | _ => None end
  | None => None
  end.
Definition get_file (s : st) (u : nat) : option (nat * list (option nat * buf)) :=
  match fls s u with
  | Some o => match heap s o with Live (File ws) => Some (o, ws) | _ => None end
  | None => None
  end.
(** pool.py 528-529, as [CopyModel.write]; [None]: KeyError or ValueError *)
Definition put_piece (s : st) (p : piece A) : option st :=
  match get_buffer s (p_uid p) with
  | None => None
  | Some (o, b) =>
      let lo := min (p_start p) (length b) in
      let hi := min (p_start p + p_len p) (length b) in
      if hi - lo =? length (p_data p)
      then Some (set_heap s o (Live (Buffer (firstn lo b ++ p_data p ++ skipn hi b))))
      else None
  end.
(** pool.py 527-529: an error ends the message *)
Fixpoint put_pieces (s : st) (ps : list (piece A)) : st :=
  match ps with
  | [] => s
  | p :: r => match put_piece s p with Some s' => put_pieces s' r | None => s end
  end.

Inductive event :=
  | New (o : nat) (x : obj)
  | Ref (u o : nat)                               (** buffer_ref, file_object_ref *)
  | Gone (o : nat)
  | Own (o : nat) (x : buf)
  | BeginB (c h block : nat) (l : list (nat * buf))        (** copy_to of buffers over channel [h] *)
  | BeginF (c h block : nat) (l : list (nat * file A))     (** ... of files *)
  | Send (c : nat) | Take (c : nat) | Write (c : nat) | Reply (c : nat) | Cancel (c : nat).

(** context.pyx 333-343: nothing to transfer, or block size 0, is refused; backends/context.py
    353-440: without messages it is done. *)
Definition begin (s : st) (c h : nat) (ms : list msg) : option st :=
  match copies s c with
  | Some _ => None
  | None => Some (set_copy s c (mkC h ms Idle (match ms with [] => Finished | _ => Active end)))
  end.

Definition step (s : st) (x : event) : option st :=
  match x with
  | New o v =>
      match heap s o, v with
      | Unborn, File (_ :: _) => None          (* what was in a file before is not in the list *)
      | Unborn, _ => Some (set_heap s o (Live v))
      | _, _ => None
      end
  | Ref u o =>
      match bufs s u, fls s u, heap s o with
      | None, None, Live (Buffer _) => Some (mkSt (heap s) (upd (bufs s) u (Some o)) (fls s) (wire s) (copies s))
      | None, None, Live (File _) => Some (mkSt (heap s) (bufs s) (upd (fls s) u (Some o)) (wire s) (copies s))
      | _, _, _ => None
      end
  | Gone o => match heap s o with Live _ => Some (set_heap s o Dead) | _ => None end
  | Own o d =>
      match heap s o with
      | Live (Buffer b) => if length d =? length b then Some (set_heap s o (Live (Buffer d))) else None
      | Live (File ws) => Some (set_heap s o (Live (File (ws ++ [(None, d)]))))
      | _ => None
      end
  | BeginB c h block l =>
      match block, l with
      | 0, _ | _, [] => None
      | _, _ => match messages A block l with Some ms => begin s c h (map BufMsg ms) | None => None end
      end
  | BeginF c h block l =>
      match block, l with
      | 0, _ | _, [] => None
      | _, _ => match fmessages A block l with Some ms => begin s c h (map FileMsg ms) | None => None end
      end
  | Send c =>
      match copies s c with
      | Some (mkC h (m :: t) Idle Active) => Some (set_wire (set_copy s c (mkC h t (OnWire m) Active)) h (wire s h ++ [c]))
      | _ => None
      end
  | Take c =>
      match copies s c with
      | Some (mkC h t (OnWire m) a) =>
          match wire s h with
          | c' :: w => if c' =? c
                       then let s1 := set_wire s h w in
                            match m with
                            | BufMsg ps => Some (set_copy (put_pieces s1 ps) c (mkC h t Handled a))
                            | FileMsg ps => Some (set_copy s1 c (mkC h t (Busy ps) a))
                            end
                       else None
          | [] => None
          end
      | _ => None
      end
  | Write c =>
      match copies s c with
      | Some (mkC h t (Busy (p :: r)) a) =>
          match get_file s (f_uid p) with
          | Some (o, ws) => Some (set_copy (set_heap s o (Live (File (ws ++ [(Some c, f_data p)])))) c (mkC h t (Busy r) a))
          | None => Some (set_copy s c (mkC h t Handled a))
          end
      | _ => None
      end
  | Reply c =>
      let back h t a := Some (set_copy s c (mkC h t Idle (match a, t with Active, [] => Finished | _, _ => a end))) in
      match copies s c with
      | Some (mkC h t Handled a) => back h t a
      | Some (mkC h t (Busy []) a) => back h t a
      | _ => None
      end
  | Cancel c =>
      match copies s c with
      | Some (mkC h t f Active) => Some (set_copy s c (mkC h [] f Cancelled))
      | _ => None
      end
  end.
Fixpoint run (s : st) (tr : list event) : option st :=
  match tr with
  | [] => Some s
  | x :: r => match step s x with Some s' => run s' r | None => None end
  end.
Definition fresh : st := mkSt (fun _ => Unborn) (fun _ => None) (fun _ => None) (fun _ => []) (fun _ => None).
End Conc.
