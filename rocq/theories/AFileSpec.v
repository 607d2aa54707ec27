(** * AFileSpec: what the events of a run say about the order of operations

    Nothing here depends on the queue, the threads or the outcomes of the model. *)
From Coq Require Import List Bool Arith.
From Verif Require Import AFileModel.
Import ListNotations.

Section Spec.
Context {F Op R : Type} (exec : F -> Op -> F * R).
Notation event := (@event Op).

(** The object after these operations, one after the other, and the result of each. *)
Fixpoint sync (x : F) (l : list Op) : F := match l with [] => x | o :: r => sync (fst (exec x o)) r end.

(** An operation took effect when its thread finished it; [calls]: what was called so far. *)
Fixpoint history (h : nat -> option nat) (calls : nat -> option (nat * Op)) (tr : list event) : list (nat * option nat * Op) :=
  match tr with
  | [] => []
  | Call i w o :: r => match h w with
                       | Some f => history h (upd calls i (Some (f, o))) r
                       | None => history h calls r
                       end
  | Direct w o :: r => match h w with
                       | Some f => (f, None, o) :: history h calls r
                       | None => history h calls r
                       end
  | Finish i :: r => match calls i with
                     | Some (f, o) => (f, Some i, o) :: history h calls r
                     | None => history h calls r
                     end
  | Detach w :: r => history (upd h w None) calls r
  | _ :: r => history h calls r
  end.
Definition nothing : nat -> option (nat * Op) := fun _ => None.
(** ... on file [f]: who and what *)
Fixpoint on (f : nat) (l : list (nat * option nat * Op)) : list (option nat * Op) :=
  match l with [] => [] | (g, i, o) :: r => if g =? f then (i, o) :: on f r else on f r end.
(** What the program asked of file [f], in its order. *)
Fixpoint asked (f : nat) (h : nat -> option nat) (tr : list event) : list (option nat * Op) :=
  match tr with
  | [] => []
  | Call i w o :: r => match h w with
                       | Some g => if g =? f then (Some i, o) :: asked f h r else asked f h r
                       | None => asked f h r
                       end
  | Direct w o :: r => match h w with
                       | Some g => if g =? f then (None, o) :: asked f h r else asked f h r
                       | None => asked f h r
                       end
  | Detach w :: r => asked f (upd h w None) r
  | _ :: r => asked f h r
  end.
(** Each operation on file [f] is awaited (and not cancelled) before the next is called;
    [pend]: the one that is awaited. *)
Fixpoint turns (f : nat) (h : nat -> option nat) (pend : option nat) (tr : list event) : Prop :=
  match tr with
  | [] => True
  | Call i w o :: r => match h w with
                       | Some g => if g =? f then pend = None /\ turns f h (Some i) r else turns f h pend r
                       | None => turns f h pend r
                       end
  | Direct w o :: r => match h w with
                       | Some g => (g = f -> pend = None) /\ turns f h pend r
                       | None => turns f h pend r
                       end
  | Finish i :: r => turns f h (match pend with Some j => if j =? i then None else pend | None => None end) r
  | Cancel i :: r => pend <> Some i /\ turns f h pend r
  | Detach w :: r => turns f (upd h w None) pend r
  | _ :: r => turns f h pend r
  end.
(** The calls that reach the executor, and the ones that threads finish. *)
Fixpoint issued (h : nat -> option nat) (tr : list event) : list nat :=
  match tr with
  | [] => []
  | Call i w o :: r => match h w with Some _ => i :: issued h r | None => issued h r end
  | Await i e :: r => i :: issued h r
  | Detach w :: r => issued (upd h w None) r
  | _ :: r => issued h r
  end.
Fixpoint finished (tr : list event) : list nat :=
  match tr with [] => [] | Finish i :: r => i :: finished r | _ :: r => finished r end.

End Spec.
