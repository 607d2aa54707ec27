(** Who belongs to an actor pool, told by what was done, without looking into any
    process. *)
From Coq Require Import List Bool Arith.
From Verif Require Import Dict MembersModel.
Import ListNotations.

(** Workers that have come up and were not removed since: process index, address. *)
Definition next_joined (l : list (nat * nat)) (o : op) : list (nat * nat) :=
  match o with
  | Up i a => l ++ [(i, a)]
  | Remove a => filter (fun w => negb (Nat.eqb (snd w) a)) l
  | _ => l
  end.
Definition joined (os : list op) : list (nat * nat) := fold_left next_joined os [].
Definition members (os : list op) : list nat := map snd (joined os).

(** append_sub_pool calls whose worker has not come up (yet, or because it
    failed): process index, the address it was given. *)
Definition next_waiting (l : list (nat * ext)) (o : op) : list (nat * ext) :=
  match o with
  | Append i e _ => l ++ [(i, e)]
  | Up i _ => filter (fun w => negb (Nat.eqb (fst w) i)) l
  | _ => l
  end.
Definition waiting (os : list op) : list (nat * ext) := fold_left next_waiting os [].

(** Workers that are being stopped by remove_sub_pool. *)
Definition next_leaving (l : list nat) (o : op) : list nat :=
  match o with
  | Remove a => l ++ [a]
  | Stopped a => filter (fun b => negb (Nat.eqb b a)) l
  | _ => l
  end.
Definition leaving (os : list op) : list nat := fold_left next_leaving os [].

(** No address is used by two at a time; only members are removed. *)
Definition tidy_op (m : nat) (os1 : list op) (o : op) : Prop :=
  match o with
  | Append _ (At b) _ => b <> m /\ ~ In b (members os1) /\ ~ In (At b) (map snd (waiting os1))
  | Up i a => a <> m /\ ~ In a (members os1) /\ ~ In a (leaving os1) /\
              (forall j, In (j, At a) (waiting os1) -> j = i)
  | Remove a => In a (members os1)
  | _ => True
  end.
Definition tidy (m : nat) (os : list op) : Prop := forall os1 o os2, os = os1 ++ o :: os2 -> tidy_op m os1 o.

(** Nothing is under way. *)
Definition quiet (s : state) : Prop :=
  starting s = [] /\ stopping s = [] /\ restarting s = [] /\ tasks s = [] /\ wire s = [].

(** Nothing goes wrong: workers come up and do not die, messages to members arrive
    and are not overtaken by later ones to the same worker. *)
Definition first_for (l : list (nat * config)) (n : nat) : Prop :=
  forall p c, nth_error l n = Some (p, c) -> forall k c', k < n -> nth_error l k <> Some (p, c').
Definition smooth_op (s : state) (o : op) : Prop :=
  match o with
  | Append _ _ _ | Up _ _ | Remove _ | Stopped _ | Send _ _ => True
  | Deliver n => first_for (wire s) n
  | Unsent a => ~ In a (gkeys (subs s))
  | Lose n => forall p c, nth_error (wire s) n = Some (p, c) -> ~ In p (map snd (subs s))
  | Failed _ | Crash _ | Restart _ _ | Restarted _ => False
  end.

(** Nothing goes wrong, messages may overtake each other, but workers are appended
    and removed one after the other. *)
Definition single_op (s : state) (o : op) : Prop :=
  match o with
  | Append _ _ _ | Remove _ => quiet s
  | Up _ _ | Stopped _ | Send _ _ | Deliver _ => True
  | Unsent a => ~ In a (gkeys (subs s))
  | Lose n => forall p c, nth_error (wire s) n = Some (p, c) -> ~ In p (map snd (subs s))
  | Failed _ | Crash _ | Restart _ _ | Restarted _ => False
  end.

Fixpoint always (P : state -> op -> Prop) (s : state) (os : list op) : Prop :=
  match os with
  | [] => True
  | o :: os' => P s o /\ (forall s', apply s o = Some s' -> always P s' os')
  end.
