(** The pools of a process, without any router: who runs, which addresses it has,
    what it has announced.  Independent of how the code keeps this. *)
From Coq Require Import String List Bool Arith.
From Verif Require Import Dict RouterModel RoutesModel.
Import ListNotations.
Open Scope string_scope.
Open Scope list_scope.

(** [Running], until its [stop] begins; [Closed] when [stop] is over. *)
Inductive phase := Running | Stopping | Closed.

(** A pool: its own addresses; its address within the process; the processes it
    has now ([known]: external address to internal address) and those that it
    had when it last told the rest of the process about them ([told]). *)
Record view := { ph : phase; here : list addr; inproc : addr;
                 known : addr -> option (option addr); told : addr -> option (option addr) }.
Definition world := nat -> option view.

Definition of_table (t : list (addr * option addr)) : addr -> option (option addr) :=
  fun a => match find (fun e => String.eqb (fst e) a) t with Some (_, i) => Some i | None => None end.
Definition upd (w : world) (p : nat) (v : view) : world := fun q => if Nat.eqb q p then Some v else w q.

Definition happens (w : world) (o : op) : world :=
  match o with
  | Start p q => upd w p {| ph := Running; here := own q; inproc := loc q; known := of_table (tab q); told := of_table (tab q) |}
  | Learn p a i =>
      match w p with
      | Some v => upd w p {| ph := ph v; here := here v; inproc := inproc v;
                             known := fun b => if String.eqb b a then Some i else known v b; told := told v |}
      | None => w
      end
  | Forget p a =>
      match w p with
      | Some v => upd w p {| ph := ph v; here := here v; inproc := inproc v;
                             known := fun b => if String.eqb b a then None else known v b; told := told v |}
      | None => w
      end
  | Sync p =>
      match w p with
      | Some v => upd w p {| ph := ph v; here := here v; inproc := inproc v; known := known v; told := known v |}
      | None => w
      end
  | Receive p t =>
      match w p with
      | Some v => upd w p {| ph := ph v; here := here v; inproc := inproc v; known := of_table t; told := of_table t |}
      | None => w
      end
  | Stop p =>
      match w p with
      | Some v => upd w p {| ph := match ph v with Running => Stopping | _ => Closed end;
                             here := here v; inproc := inproc v; known := known v; told := told v |}
      | None => w
      end
  end.

Definition nobody : world := fun _ => None.
Definition after (os : list op) : world := fold_left happens os nobody.

(** [a] is, or was until recently, an address of this pool. *)
Definition uses (w : world) (p : nat) (a : addr) : Prop :=
  exists v, w p = Some v /\ ph v <> Closed /\ (In a (here v) \/ known v a <> None \/ told v a <> None).

(** At no time two pools of the process have the address. *)
Definition exclusive (os : list op) (a : addr) : Prop :=
  forall os1 os2, os = os1 ++ os2 -> forall p q, uses (after os1) p a -> uses (after os1) q a -> p = q.

Definition runs (w : world) (p : nat) : Prop := exists v, w p = Some v /\ ph v = Running.

(** Pools are made once; only running pools change; [stop] is not called again
    when it is over.  Tables are dictionaries, own addresses are distinct. *)
Definition proper (w : world) (o : op) : Prop :=
  match o with
  | Start p q => w p = None /\ NoDup (own q) /\ NoDup (map fst (tab q)) /\ NoDup (map fst (prx q))
  | Learn p _ _ | Forget p _ | Sync p => runs w p
  | Receive p t => runs w p /\ NoDup (map fst t)
  | Stop p => exists v, w p = Some v /\ ph v <> Closed
  end.
Definition orderly (os : list op) : Prop := forall os1 o os2, os = os1 ++ o :: os2 -> proper (after os1) o.

(** Running pools, the one that started or told its processes longest ago first. *)
Definition without (p : nat) (l : list nat) : list nat := filter (fun q => negb (Nat.eqb q p)) l.
Definition next_order (l : list nat) (o : op) : list nat :=
  match o with
  | Start p _ | Sync p | Receive p _ => without p l ++ [p]
  | Stop p => without p l
  | _ => l
  end.
Definition by_announcement (os : list op) : list nat := fold_left next_order os [].
