(** * Specification for C70 and C71 *)
From Coq Require Import List Arith Bool.
From Verif Require Import YieldModel.
Import ListNotations.

Section Spec.
  Variables M V E St : Type.
  Variable none : V.
  Variable cancelled : E.
  Notation prog := (prog M V E St).
  Notation act := (act M V E St).
  Notation call := (call M).
  Notation outcome := (outcome V E).
  Notation entry := (entry V E St).
  Notation ran := (ran St).

  (** ** What a yield of several calls gets: all values, or the exception of the first (in the order of the tuple) that failed *)
  Inductive gathered : list outcome -> list V + E -> Prop :=
  | all_fine : forall vs, gathered (map Ok vs) (inl vs)
  | first_failure : forall vs e rest, gathered (map Ok vs ++ Err e :: rest) (inr e).

  (** ** The method as a sequential program

      [answered l is cs os]: the tasks [is] are the calls [cs], have ended, with outcomes [os]. *)
  Inductive answered (l : list (task M V E St)) : list nat -> list call -> list outcome -> Prop :=
  | a_nil : answered l [] [] []
  | a_cons : forall i is c cs o os log, nth_error l i = Some (mkTask c (Done o) log) -> answered l is cs os ->
      answered l (i :: is) (c :: cs) (o :: os).

  (** [follows l p log w]: after it has read these states and got these results from its calls, the program [p] is at
      [w]. *)
  Inductive place :=
  | Before (p : prog)                                (** a segment *)
  | AtYield (cs : list call) (k : list V + E -> prog)
  | AtAwait (c : call) (k : outcome -> prog)
  | AtDelegate (cs : list call) (f : list V -> V)
  | Finished (o : outcome).
  Definition place_of (a : act) : place :=
    match a with
    | Return v => Finished (Ok v)
    | Stop => Finished (Ok none)
    | Raise e => Finished (Err e)
    | Yield cs k => AtYield cs k
    | Await c k => AtAwait c k
    | Delegate cs f => AtDelegate cs f
    end.
  (** What a wait for the tasks [is], which are the calls [cs], gives.  If it was cancelled ([b]): CancelledError; or the exception of
      one of the calls; or, if there is only one call, its value. *)
  Definition called (l : list (task M V E St)) (is : list nat) (cs : list call) : Prop :=
    Forall2 (fun i c => exists ts log, nth_error l i = Some (mkTask c ts log)) is cs.
  Inductive waited (l : list (task M V E St)) (is : list nat) (cs : list call) : bool -> list V + E -> Prop :=
  | w_normal : forall os r, answered l is cs os -> gathered os r -> waited l is cs false r
  | w_cancelled : called l is cs -> waited l is cs true (inr cancelled)
  | w_failed : forall i c e log, called l is cs -> In i is -> nth_error l i = Some (mkTask c (Done (Err e)) log) -> waited l is cs true (inr e)
  | w_value : forall v, answered l is cs [Ok v] -> waited l is cs true (inl [v]).
  Inductive follows (l : list (task M V E St)) (p : prog) : list entry -> place -> Prop :=
  | f_start : follows l p [] (Before p)
  | f_ran : forall log u next u' next' s, follows l p log (Before (Seg u next u' next')) -> follows l p (log ++ [Ran s]) (place_of (next s))
  | f_stopped : forall log u next u' next' s, follows l p log (Before (Seg u next u' next')) ->
      follows l p (log ++ [Stopped s]) (place_of (next' s))
  | f_yield : forall log cs k is b r, follows l p log (AtYield cs k) -> waited l is cs b r ->
      follows l p (log ++ [Got is r b]) (Before (k r))
  | f_await_ok : forall log c k i b v, follows l p log (AtAwait c k) -> waited l [i] [c] b (inl [v]) ->
      follows l p (log ++ [GotOne i (Ok v) b]) (Before (k (Ok v)))
  | f_await_err : forall log c k i b e, follows l p log (AtAwait c k) -> waited l [i] [c] b (inr e) ->
      follows l p (log ++ [GotOne i (Err e) b]) (Before (k (Err e)))
  | f_delegate_ok : forall log cs f is b vs, follows l p log (AtDelegate cs f) -> waited l is cs b (inl vs) ->
      follows l p (log ++ [Got is (inl vs) b]) (Finished (Ok (f vs)))
  | f_delegate_err : forall log cs f is b e, follows l p log (AtDelegate cs f) -> waited l is cs b (inr e) ->
      follows l p (log ++ [Got is (inr e) b]) (Finished (Err e)).

  (** The calls it has waited for *)
  Definition waited_for (log : list entry) : list nat :=
    flat_map (fun x => match x with Ran _ | Stopped _ => [] | Got is _ _ => is | GotOne i _ _ => [i] end) log.
  (** The states it has read *)
  Definition read (log : list entry) : list St := flat_map (fun x => match x with Ran s | Stopped s => [s] | _ => [] end) log.

  (** ** What happened on one actor: each segment finds what the one before left *)
  Inductive chain (x0 : St) : list ran -> St -> Prop :=
  | c_start : chain x0 [] x0
  | c_next : forall l x r, chain x0 l x -> r_before r = x -> chain x0 (l ++ [r]) (r_after r).

  (** ** Who may wait for whom *)
  Section Levels.
    Variable lvl : nat -> nat.
    (** Methods of actor [a] await (with the lock) only methods of actors on lower levels; what they yield is not on higher
        levels. *)
    Fixpoint layered (a : nat) (p : prog) : Prop :=
      match p with Seg _ next _ next' => forall s, layered_act a (next s) /\ layered_act a (next' s) end
    with layered_act (a : nat) (x : act) : Prop :=
      match x with
      | Return _ | Stop | Raise _ => True
      | Yield cs k => (forall c, In c cs -> lvl (fst c) <= lvl a) /\ forall r, layered a (k r)
      | Await c k => lvl (fst c) < lvl a /\ forall o, layered a (k o)
      | Delegate cs _ => forall c, In c cs -> lvl (fst c) <= lvl a
      end.
  End Levels.
  (** No method waits with the lock. *)
  Fixpoint never_awaits (p : prog) : Prop :=
    match p with Seg _ next _ next' => forall s, never_awaits_act (next s) /\ never_awaits_act (next' s) end
  with never_awaits_act (x : act) : Prop :=
    match x with
    | Yield _ k => forall r, never_awaits (k r)
    | Await _ _ => False
    | _ => True
    end.

  (** ** Methods that let CancelledError through: whatever they do after it was raised (finally), they end with it.  [n]: how many
      calls they wait for at a time. *)
  Fixpoint doomed (p : prog) : Prop :=
    match p with Seg _ next _ next' => forall s, doomed_act (next s) /\ doomed_act (next' s) end
  with doomed_act (x : act) : Prop :=
    match x with
    | Raise e => e = cancelled
    | Return _ | Stop | Delegate _ _ => False
    | Yield _ k => forall r, doomed (k r)
    | Await _ k => forall o, doomed (k o)
    end.
  Fixpoint lets_through (n : nat) (p : prog) : Prop :=
    match p with Seg _ next _ next' => forall s, lets_through_act n (next s) /\ doomed_act (next' s) end
  with lets_through_act (n : nat) (x : act) : Prop :=
    match x with
    | Return _ | Stop | Raise _ => True
    | Yield cs k => length cs <= n /\ doomed (k (inr cancelled)) /\ forall r, lets_through n (k r)
    | Await _ k => doomed (k (Err cancelled)) /\ forall o, lets_through n (k o)
    | Delegate cs _ => length cs <= n
    end.

  (** Methods without yield *)
  Fixpoint never_yields (p : prog) : Prop :=
    match p with Seg _ next _ next' => forall s, never_yields_act (next s) /\ never_yields_act (next' s) end
  with never_yields_act (x : act) : Prop :=
    match x with
    | Yield _ _ => False
    | Await _ k => forall o, never_yields (k o)
    | _ => True
    end.

  (** ** Calls whose tree of calls is finite, whatever states and results they see *)
  Section Ends.
    Variable methods : nat -> M -> method M V E St.
    Inductive ends : call -> Prop :=
    | ends_call : forall c, ends_prog (body M V E St methods c) -> ends c
    with ends_prog : prog -> Prop :=
    | ends_seg : forall u next u' next', (forall s, ends_act (next s)) -> (forall s, ends_act (next' s)) -> ends_prog (Seg u next u' next')
    with ends_act : act -> Prop :=
    | ends_return : forall v, ends_act (Return v)
    | ends_stop : ends_act Stop
    | ends_raise : forall e, ends_act (Raise e)
    | ends_yield : forall cs k, (forall c, In c cs -> ends c) -> (forall r, ends_prog (k r)) -> ends_act (Yield cs k)
    | ends_await : forall c k, ends c -> (forall o, ends_prog (k o)) -> ends_act (Await c k)
    | ends_delegate : forall cs f, (forall c, In c cs -> ends c) -> ends_act (Delegate cs f).
  End Ends.
End Spec.
Arguments gathered {V E}. Arguments answered {M V E St}. Arguments follows {M V E St}. Arguments place_of {M V E St}.
Arguments waited_for {V E St}. Arguments read {V E St}. Arguments chain {St}.
Arguments Before {M V E St}. Arguments AtYield {M V E St}. Arguments AtAwait {M V E St}. Arguments AtDelegate {M V E St}. Arguments Finished {M V E St}.
Arguments layered {M V E St}. Arguments layered_act {M V E St}. Arguments never_awaits {M V E St}. Arguments never_awaits_act {M V E St}.
Arguments ends {M V E St}. Arguments ends_prog {M V E St}. Arguments ends_act {M V E St}.
Arguments called {M V E St}. Arguments waited {M V E St}. Arguments doomed {M V E St}. Arguments doomed_act {M V E St}.
Arguments lets_through {M V E St}. Arguments lets_through_act {M V E St}.
Arguments never_yields {M V E St}. Arguments never_yields_act {M V E St}.
