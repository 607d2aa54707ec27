(** * C30: retry_callable

    How to read.  [call i] is the outcome of the i-th invocation of the wrapped
    callable; [max] is [max_retries] (negative: no limit).  [k] is the number of
    leading invocations that raise a listed exception.  The specification
    [spec] says, from [call], [max] and [k] alone, how the wrapper has to end
    and what it has to do before: k failed attempts each followed by a sleep,
    then the attempt that decides, if the limit allows it. *)
From Coq Require Import List ZArith Bool Lia.
From Verif Require Import RetryModel.
Import ListNotations.
Open Scope Z_scope.

Section Props.
Context {V E : Type}.
Notation outcome := (outcome V E).
Notation result := (result V E).
Implicit Types (call : Z -> outcome) (max : Z).

(** ** Specification *)
(** The first [k] attempts raise a listed exception. *)
Definition fails_first call (k : nat) := forall i, 0 <= i < Z.of_nat k -> exists e, call i = Listed e.

(** [k] failed attempts. *)
Fixpoint attempts (k : nat) : list event := match k with O => [] | S k => Call :: Sleep :: attempts k end.

(** ** Lemmas *)
Definition failed (k : nat) (x : option E) : state E := mkSt (Z.of_nat k) x (rev (attempts k)).

Lemma attempts_snoc k : attempts (S k) = attempts k ++ [Call; Sleep].
Proof. induction k as [|k IH]; [reflexivity|]. cbn [attempts app] in *. now rewrite <- IH. Qed.

Lemma rev_attempts_S k : rev (attempts (S k)) = Sleep :: Call :: rev (attempts k).
Proof. rewrite attempts_snoc, rev_app_distr. reflexivity. Qed.

Lemma turns_S (step : state E -> state E * option result) n : forall s,
  turns step (S n) s = match turns step n s with (s', None) => step s' | r => r end.
Proof.
  induction n as [|n IH]; intros s.
  - simpl. destruct (step s) as [s' [r|]]; auto.
  - cbn [turns] in IH |- *. destruct (step s) as [s' [r|]]; auto.
Qed.

Lemma again_le max s : (max < 0 \/ num_retried s < max) -> again (E:=E) max s = true.
Proof. unfold again. intros [H|H]; apply orb_true_iff; [left|right]; now apply Z.ltb_lt. Qed.
Lemma again_no max s : 0 <= max -> num_retried s >= max -> again (E:=E) max s = false.
Proof. unfold again. intros. apply orb_false_iff. split; apply Z.ltb_ge; lia. Qed.

Definition allowed max (k : nat) := max < 0 \/ Z.of_nat k <= max.

Lemma async_k call max k : fails_first call k -> allowed max k ->
  turns (step_async max call) k start = (failed k None, None).
Proof.
  induction k as [|k IH]; intros F A; auto.
  rewrite turns_S, IH.
  - unfold step_async. rewrite again_le by (unfold allowed in A; simpl; lia). cbn [num_retried failed].
    destruct (F (Z.of_nat k)) as (e & ->); [lia|]. unfold failed. rewrite rev_attempts_S. cbn [log ex].
    do 2 f_equal. lia.
  - intros i H. apply F. lia.
  - unfold allowed in *. lia.
Qed.

Definition last_ex call (k : nat) : option E :=
  match k with O => None | S k => match call (Z.of_nat k) with Listed e => Some e | _ => None end end.

Lemma sync_k call max k : fails_first call k -> allowed max k ->
  turns (step_sync max call) k start = (failed k (last_ex call k), None).
Proof.
  induction k as [|k IH]; intros F A; auto.
  rewrite turns_S, IH.
  - unfold step_sync. rewrite again_le by (unfold allowed in A; simpl; lia). cbn [num_retried failed].
    destruct (F (Z.of_nat k)) as (e & Q); [lia|]. rewrite Q. unfold failed. rewrite rev_attempts_S. cbn [log ex last_ex].
    rewrite Q. do 2 f_equal. lia.
  - intros i H. apply F. lia.
  - unfold allowed in *. lia.
Qed.

(** ** The property *)

(** The first attempt that does not raise a listed exception, if the limit
    allows it, decides: its value is returned, or its (unlisted) exception is
    raised at once; there were exactly [k+1] invocations. Both variants. *)
Theorem C30_first_decisive_attempt_decides call max k :
  fails_first call k -> (max < 0 \/ Z.of_nat k < max) ->
  (forall v, call (Z.of_nat k) = Return v ->
     ends (step_sync max call) (attempts k ++ [Call]) (RValue v) /\
     ends (step_async max call) (attempts k ++ [Call]) (RValue v)) /\
  (forall e, call (Z.of_nat k) = Other e ->
     ends (step_sync max call) (attempts k ++ [Call]) (RRaise e) /\
     ends (step_async max call) (attempts k ++ [Call]) (RRaise e)).
Proof.
  intros F A. assert (A' : allowed max k) by (unfold allowed; lia).
  assert (LR : rev (attempts k ++ [Call]) = Call :: rev (attempts k)) by (now rewrite rev_app_distr).
  unfold ends. rewrite LR.
  split; intros x Q; split; exists (S k); rewrite turns_S; rewrite ?sync_k, ?async_k by auto;
    unfold step_sync, step_async; rewrite again_le by (simpl; lia); cbn [num_retried failed];
    rewrite Q; eexists; split; reflexivity.
Qed.

(** When the [n >= 1] allowed attempts all raise listed exceptions, the
    synchronous wrapper raises the last of them. *)
Theorem C30_sync_exhausted_raises_last call n e :
  fails_first call (S n) -> call (Z.of_nat n) = Listed e ->
  ends (step_sync (Z.of_nat (S n)) call) (attempts (S n)) (RRaise e).
Proof.
  intros F Q. exists (S (S n)). rewrite turns_S, sync_k by (auto; unfold allowed; lia).
  unfold step_sync. rewrite again_no by (simpl; lia). cbn [ex failed last_ex]. rewrite Q.
  eexists. split; reflexivity.
Qed.

(** Without a limit and without a success the wrapper never ends. *)
Theorem C30_unlimited_diverges call max :
  max < 0 -> (forall i, 0 <= i -> exists e, call i = Listed e) ->
  diverges (step_sync max call) /\ diverges (step_async max call).
Proof.
  intros L F. split; intros n.
  - rewrite sync_k; auto; [|now left]. intros i H. apply F. lia.
  - rewrite async_k; auto; [|now left]. intros i H. apply F. lia.
Qed.

(** The callable is never invoked more than [max] times. *)
Definition calls (l : list event) : Z :=
  Z.of_nat (length (filter (fun e => match e with Call => true | Sleep => false end) l)).

Lemma sync_bound call max n : 0 <= max ->
  let s := fst (turns (step_sync max call) n start) in calls (log s) = num_retried s /\ num_retried s <= max.
Proof.
  intros M. induction n as [|n IH]; [simpl; unfold calls; simpl; lia|].
  rewrite turns_S. destruct (turns (step_sync max call) n start) as [s [r|]]; [exact IH|].
  cbn [fst] in *. destruct IH as [I1 I2]. unfold step_sync.
  destruct (again max s) eqn:A; [|simpl; auto].
  unfold again in A. apply orb_true_iff in A. rewrite !Z.ltb_lt in A.
  destruct (call (num_retried s)); cbn [fst num_retried log];
    (split; [revert I1; unfold calls; cbn [filter length]; lia|lia]).
Qed.
Lemma async_bound call max n : 0 <= max ->
  let s := fst (turns (step_async max call) n start) in calls (log s) = num_retried s /\ num_retried s <= max.
Proof.
  intros M. induction n as [|n IH]; [simpl; unfold calls; simpl; lia|].
  rewrite turns_S. destruct (turns (step_async max call) n start) as [s [r|]]; [exact IH|].
  cbn [fst] in *. destruct IH as [I1 I2]. unfold step_async.
  destruct (again max s) eqn:A; [|simpl; auto].
  unfold again in A. apply orb_true_iff in A. rewrite !Z.ltb_lt in A.
  destruct (call (num_retried s)); cbn [fst num_retried log];
    (split; [revert I1; unfold calls; cbn [filter length]; lia|lia]).
Qed.

Theorem C30_at_most_max_calls call max n : 0 <= max ->
  calls (log (fst (turns (step_sync max call) n start))) <= max /\
  calls (log (fst (turns (step_async max call) n start))) <= max.
Proof.
  intros M. destruct (sync_bound call max n M), (async_bound call max n M). split; lia.
Qed.

(** ** The claim that fails: the asynchronous variant reports the last failure

    "raises the last failure when the attempts are exhausted; sync and async
    variants agree" *)
Definition C30_claim (v : (Z -> outcome) -> Z -> state E -> state E * option result) :=
  forall call n e, fails_first call (S n) -> call (Z.of_nat n) = Listed e ->
    ends (v call (Z.of_nat (S n))) (attempts (S n)) (RRaise e).

(** What the asynchronous wrapper does instead, always: it returns None. *)
Theorem C30_async_exhausted_returns_None_partial call n :
  fails_first call n -> ends (step_async (Z.of_nat n) call) (attempts n) RNone.
Proof.
  intros F. exists (S n). rewrite turns_S, async_k by (auto; unfold allowed; lia).
  unfold step_async. rewrite again_no by (simpl; lia). eexists. split; reflexivity.
Qed.

Lemma turns_mono (step : state E -> state E * option result) n m s s' r :
  (n <= m)%nat -> turns step n s = (s', Some r) -> turns step m s = (s', Some r).
Proof.
  induction 1 as [|m L IH]; auto. intros Q. rewrite turns_S, IH; auto.
Qed.

(** The result of a wrapper is unique. *)
Lemma ends_fun (step : state E -> state E * option result) l r l' r' :
  ends step l r -> ends step l' r' -> r = r' /\ l = l'.
Proof.
  intros (n & s & T & L) (n' & s' & T' & L').
  apply (turns_mono _ _ (max n n')) in T; [|lia].
  apply (turns_mono _ _ (max n n')) in T'; [|lia].
  rewrite T in T'. inversion T'; subst. split; auto.
  rewrite L in L'. apply (f_equal (@rev _)) in L'. now rewrite !rev_involutive in L'.
Qed.

(** The loop has no special case for no attempt at all: with [max_retries = 0]
    the synchronous wrapper fails on its own assertion. *)
Theorem C30_sync_zero_retries_assertion call :
  ends (step_sync 0 call) [] RAssertionError.
Proof. exists 1%nat. eexists. split; reflexivity. Qed.
End Props.

Theorem C30_async_reports_last_failure_refuted :
  ~ C30_claim (V:=nat) (E:=nat) (fun call max => step_async max call).
Proof.
  intros C.
  assert (F : fails_first (V:=nat) (fun _ => Listed 7%nat) 1) by (intros i _; eauto).
  assert (A := C (fun _ => Listed 7%nat) 0%nat 7%nat F eq_refl).
  assert (B := C30_async_exhausted_returns_None_partial _ _ F).
  destruct (ends_fun _ _ _ _ _ A B) as [Q _]. discriminate.
Qed.

(** ** Non-vacuity *)
Definition demo (i : Z) : outcome nat nat :=
  if i =? 0 then Listed 1%nat else if i =? 1 then Listed 2%nat else if i =? 2 then Return 9%nat else Other 3%nat.
Example demo_ok : ends (step_sync 3 demo) [Call; Sleep; Call; Sleep; Call] (RValue 9%nat)
               /\ ends (step_async (-1) demo) [Call; Sleep; Call; Sleep; Call] (RValue 9%nat).
Proof. split; exists 3%nat; eexists; split; reflexivity. Qed.
Example demo_exhausted : ends (step_sync 2 demo) [Call; Sleep; Call; Sleep] (RRaise 2%nat)
               /\ ends (step_async 2 demo) [Call; Sleep; Call; Sleep] RNone.
Proof. split; exists 3%nat; eexists; split; reflexivity. Qed.

Print Assumptions C30_first_decisive_attempt_decides.
Print Assumptions C30_sync_exhausted_raises_last.
Print Assumptions C30_unlimited_diverges.
Print Assumptions C30_at_most_max_calls.
Print Assumptions C30_async_exhausted_returns_None_partial.
Print Assumptions C30_sync_zero_retries_assertion.
Print Assumptions C30_async_reports_last_failure_refuted.
