(** What it means that calls look as if they had been made one after the other.
    Independent of the model; used by LinearProps. *)
From Coq Require Import List.
Import ListNotations.

Section LinearSpec.
  Variables St M K R : Type.
  Variable start : M -> K.
  Variable resume : K -> St -> St * (K + R).

  (** A method that runs alone: from coroutine and state to coroutine and state. *)
  Inductive goes : K -> St -> K -> St -> Prop :=
  | goes_refl : forall k s, goes k s k s
  | goes_step : forall k s k1 s1 k2 s2, goes k s k1 s1 -> resume k1 s1 = (s2, inl k2) -> goes k s k2 s2.

  (** [m], run alone on [s], returns [r] and leaves [s']. *)
  Definition executes (m : M) (s s' : St) (r : R) : Prop :=
    exists k s1, goes (start m) s k s1 /\ resume k s1 = (s', inr r).
  (** [m], run alone on [s] and stopped somewhere, leaves [s']. *)
  Definition stops_midway (m : M) (s s' : St) : Prop := exists k, goes (start m) s k s'.

  (** The calls in the list, made one after the other from state [s], end in
      state [s']; [(id, Some r)]: call [id] returned [r]; [(id, None)]: it was
      stopped midway.  [method id m]: call [id] is a call of [m]. *)
  Inductive one_by_one (method : nat -> M -> Prop) : list (nat * option R) -> St -> St -> Prop :=
  | obo_nil : forall s, one_by_one method [] s s
  | obo_full : forall l s s1 s2 id m r, one_by_one method l s s1 -> method id m -> executes m s1 s2 r ->
      one_by_one method (l ++ [(id, Some r)]) s s2
  | obo_part : forall l s s1 s2 id m, one_by_one method l s s1 -> method id m -> stops_midway m s1 s2 ->
      one_by_one method (l ++ [(id, None)]) s s2.
End LinearSpec.

(** [a] stands before [b]. *)
Definition stands_before {A} (l : list A) (a b : A) : Prop := exists l1 l2, l = l1 ++ l2 /\ In a l1 /\ In b l2.
