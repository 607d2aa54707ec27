(** * C54: the rendezvous store's requests, replies and notifications arrive as they were sent

    How to read.  [client_send r ans] is the sending half of a call that makes
    request [r]: the bytes that reached the wire and how it ended.  [query] is the
    server reading one request off a connection; [acts] records what it then does.
    [client_recv r] is the receiving half of the call.  The operating system may
    split, interrupt, stall or fail every single [send] and [recv] as it likes:
    all the lists of answers [sa] and [ra] below are arbitrary. *)
From Coq Require Import Ascii String List Bool Arith NArith ZArith Lia.
From Verif Require Import PyStr StoreWireModel StoreWireProofs.
Import ListNotations.
Open Scope list_scope.
Open Scope nat_scope.

(** ** Specification *)
(** Requests that the 64-bit fields can carry *)
Definition short (b : list ascii) : Prop := (N.of_nat (List.length b) < 2 ^ 64)%N.
Definition few {A} (l : list A) : Prop := (N.of_nat (List.length l) < 2 ^ 63)%N.
Definition sendable (r : request) : Prop :=
  match r with
  | Set_ k v | Append k v => short k /\ short v
  | CompareSet k e d => short k /\ short e /\ short d
  | Get k | DeleteKey k | WatchKey k => short k
  | Add k z => short k /\ (- 2 ^ 63 <= z < 2 ^ 63)%Z
  | Check ks | Wait ks | MultiGet ks => few ks /\ Forall short ks
  | GetNumKeys => True
  | MultiSet kvs => few kvs /\ Forall (fun p => short (fst p) /\ short (snd p)) kvs
  end.
(** What the server has to do for a request: the multi-key ones key by key, in
    the order given. *)
Definition performs (r : request) : list act :=
  match r with
  | MultiGet ks => map GetOne ks
  | MultiSet kvs => map (fun p => SetOne (fst p) (snd p)) kvs
  | r => [Exec r]
  end.
(** The kind of answer a request asks for, if any *)
Definition answer_to (r : request) (a : reply) : Prop :=
  match r, a with
  | CompareSet _ _ _, RBytes v | Get _, RBytes v => short v
  | Add _ _, RInt z | GetNumKeys, RInt z | DeleteKey _, RInt z => (- 2 ^ 63 <= z < 2 ^ 63)%Z
  | Check _, RReady _ => True
  | Wait _, RStop => True
  | MultiGet ks, RList vs => List.length vs = List.length ks /\ Forall short vs
  | _, _ => False
  end.
Definition prefix {A} (p l : list A) : Prop := exists q, l = p ++ q.
Definition strict_prefix {A} (p l : list A) : Prop := exists q, q <> [] /\ l = p ++ q.
(** What a watcher is told for each message of the server *)
Definition told (m : note) : event :=
  match m with
  | Registered => Unblock
  | Changed KeyCreated k _ new => Callback k None (Some new)
  | Changed KeyDeleted k old _ => Callback k (Some old) None
  | Changed _ k old new => Callback k (Some old) (Some new)
  end.
Definition note_fits (m : note) : Prop :=
  match m with Registered => True | Changed _ k o n => short k /\ short o /\ short n end.
(** [n] messages are read and handled one after the other. *)
Fixpoint worker (n : nat) : R (list event) :=
  match n with O => rret [] | S n => e <- callbackHandler ;; es <- worker n ;; rret (e :: es) end.
Fixpoint daemon (n : nat) : R unit := match n with O => rret tt | S n => _ <- query ;; daemon n end.
(** An operating system that does not fail and moves at least [n] times *)
Definition cooperative (ans : list answer) (n : nat) : Prop :=
  (forall a, In a ans -> a = Interrupted \/ exists k, a = Moved (S k)) /\
  n <= List.length (filter (fun a => match a with Moved _ => true | _ => false end) ans).

(** Bytes in a request: one for its kind, eight before each key or value and for
    each number. *)
Definition sz (b : list ascii) : nat := 8 + List.length b.
Definition request_size (r : request) : nat :=
  1 + match r with
      | Set_ k v | Append k v => sz k + sz v
      | CompareSet k e d => sz k + sz e + sz d
      | Get k | DeleteKey k | WatchKey k => sz k
      | Add k _ => sz k + 8
      | GetNumKeys => 0
      | Check ks | Wait ks | MultiGet ks => 8 + list_sum (map sz ks)
      | MultiSet kvs => 8 + list_sum (map (fun p => sz (fst p) + sz (snd p)) kvs)
      end.

(** ** Proofs *)
Lemma vec_length b : List.length (vec b) = sz b.
Proof. unfold vec, sz, u64. now rewrite app_length, le_length. Qed.
Lemma concat_vec_length ks : List.length (concat (map vec ks)) = list_sum (map sz ks).
Proof. induction ks; [reflexivity|]. cbn [map concat list_sum fold_right]. rewrite app_length, vec_length, IHks. reflexivity. Qed.
Lemma wire_length r : List.length (wire_of r) = request_size r.
Proof.
  unfold wire_of. rewrite app_length, le_length. unfold request_size. f_equal.
  destruct r; cbn [body]; unfold i64, u64; rewrite ?app_length, ?vec_length, ?le_length, ?concat_vec_length; try reflexivity; try lia.
  f_equal. induction kvs as [|[k v] kvs IH]; [reflexivity|]. cbn [map concat list_sum fold_right fst snd].
  unfold pair_bytes at 1. rewrite !app_length, !vec_length, IH. reflexivity.
Qed.
Lemma cooperative_enough ans n : cooperative ans n -> enough ans n.
Proof.
  intros [H L]. split; [|exact L]. apply Forall_forall. intros a Ha.
  destruct (H a Ha) as [->|(k & ->)]; cbn; [exact I|discriminate].
Qed.

Lemma few_u64 {A} (l : list A) : few l -> (count l < 2 ^ 64)%N.
Proof. unfold few, count. intros H. eapply N.lt_trans; [exact H|reflexivity]. Qed.

Lemma reads_keys {B} (f : list key -> R B) ks b d : few ks -> Forall short ks -> Reads (f ks) [] b d ->
  Reads (n <- recvU64 ;; ks <- recvStrings (N.to_nat n) ;; f ks) (u64 (count ks) ++ concat (map vec ks)) b d.
Proof.
  intros Hf Hs Hb. apply reads_bind0 with (a := count ks); [apply reads_u64; now apply few_u64|].
  unfold count. rewrite Nat2N.id. apply reads_then with (a := ks); [now apply reads_strings|exact Hb].
Qed.
Lemma handler_reads r : sendable r -> Reads (handler (query_type r)) (body r) tt (performs r).
Proof.
  destruct r; cbn [sendable query_type handler body performs]; intros H.
  - destruct H as [Hk Hv]. apply reads_bind0 with (a := k); [now apply reads_string|].
    apply reads_then with (a := v); [now apply reads_vector|]. apply reads_perform.
  - destruct H as (Hk & He & Hd). apply reads_bind0 with (a := k); [now apply reads_string|].
    apply reads_bind0 with (a := expected); [now apply reads_vector|].
    apply reads_then with (a := desired); [now apply reads_vector|]. apply reads_perform.
  - apply reads_then with (a := k); [now apply reads_string|]. apply reads_perform.
  - destruct H as [Hk Hz]. apply reads_bind0 with (a := k); [now apply reads_string|].
    apply reads_then with (a := z); [now apply reads_i64|]. apply reads_perform.
  - destruct H as [Hf Hs]. apply reads_keys; [exact Hf|exact Hs|apply reads_perform].
  - destruct H as [Hf Hs]. apply (reads_keys (fun ks => perform (Exec (Wait ks)))); [exact Hf|exact Hs|apply reads_perform].
  - apply reads_perform.
  - apply reads_then with (a := k); [now apply reads_string|]. apply reads_perform.
  - apply reads_then with (a := k); [now apply reads_string|]. apply reads_perform.
  - destruct H as [Hk Hv]. apply reads_bind0 with (a := k); [now apply reads_string|].
    apply reads_then with (a := v); [now apply reads_vector|]. apply reads_perform.
  - destruct H as [Hf Hs]. apply reads_bind0 with (a := count ks); [apply reads_u64; now apply few_u64|].
    unfold count. rewrite Nat2N.id. now apply reads_multiGet.
  - destruct H as [Hf Hs]. apply reads_bind0 with (a := N.of_nat (List.length kvs)).
    + apply reads_i64_u64. unfold few in Hf. lia.
    + rewrite Nat2N.id. now apply reads_multiSet.
Qed.
Lemma query_reads r : sendable r -> Reads query (wire_of r) tt (performs r).
Proof.
  intros H. unfold query, wire_of. apply reads_bind0 with (a := query_type r).
  - apply reads_byte. destruct r; reflexivity.
  - now apply handler_reads.
Qed.

(** A request sent in full is handled by the server as exactly that request, and
    the bytes behind it are left alone; while it is being read, only its own first
    steps have been performed. *)
Theorem C54_request_arrives r sa w rest ra log s res :
  sendable r -> client_send r sa = (w, Sent) ->
  query (mkR (w ++ rest) ra log) = (s, res) ->
  (res = Got tt -> arrived s = rest /\ acts s = log ++ performs r) /\
  (exists done, prefix done (performs r) /\ acts s = log ++ done).
Proof.
  intros Hr Hs Hq. apply client_send_spec in Hs. cbv iota in Hs. subst w.
  destruct (query_reads r Hr) as [Q _]. specialize (Q rest ra log). rewrite Hq in Q.
  destruct res as [u|f|].
  - destruct Q as (_ & Ha & Hc). split; [auto|]. exists (performs r). split; [|exact Hc]. exists []. now rewrite app_nil_r.
  - split; [discriminate|]. destruct Q as (p & q & E & Hc). exists p. split; [now exists q|exact Hc].
  - split; [discriminate|]. destruct Q as (p & q & E & Hc). exists p. split; [now exists q|exact Hc].
Qed.

(** If the operating systems on both ends cooperate, it does arrive. *)
Theorem C54_request_is_handled r sa rest ra log :
  sendable r -> cooperative sa (request_size r) -> cooperative ra (request_size r) ->
  exists w, client_send r sa = (w, Sent) /\
  exists s, query (mkR (w ++ rest) ra log) = (s, Got tt) /\ arrived s = rest /\ acts s = log ++ performs r.
Proof.
  intros Hr Hsa Hra. rewrite <- wire_length in Hsa, Hra.
  destruct (client_send_live r sa) as (w & E); [now apply cooperative_enough|].
  exists w. split; [exact E|]. apply client_send_spec in E as Ew. cbv iota in Ew.
  destruct (query_reads r Hr) as (Q1 & _ & Q3).
  subst w.
  destruct (Q3 rest ra log 0) as (s & Es & _).
  { rewrite Nat.add_0_r. now apply cooperative_enough. }
  exists s. split; [exact Es|]. specialize (Q1 rest ra log). rewrite Es in Q1. destruct Q1 as (_ & A & B). auto.
Qed.

(** A request of which only a part arrived - the call failed half-way, or the
    connection was cut - is never completed: the server performs nothing for it,
    or, for a multi-key request, only some of its first keys. *)
Theorem C54_cut_request r sa w sres got ra log s res :
  sendable r -> client_send r sa = (w, sres) ->
  (strict_prefix got w \/ (sres <> Sent /\ got = w)) ->
  query (mkR got ra log) = (s, res) ->
  res <> Got tt /\
  (exists done, prefix done (performs r) /\ acts s = log ++ done) /\
  (performs r <> [] -> exists done, strict_prefix done (performs r) /\ acts s = log ++ done).
Proof.
  intros Hr Hs Hg Hq. apply client_send_spec in Hs.
  assert (Hw : exists q, q <> [] /\ got ++ q = wire_of r).
  { destruct Hg as [(q & Hq' & ->)|[Hn ->]].
    - destruct sres.
      + exists q. auto.
      + destruct Hs as (q2 & H2 & E). exists (q ++ q2). rewrite app_assoc. split; [|exact E]. destruct q; [congruence|discriminate].
      + destruct Hs as (q2 & H2 & E). exists (q ++ q2). rewrite app_assoc. split; [|exact E]. destruct q; [congruence|discriminate].
    - destruct sres; [congruence|exact Hs|exact Hs]. }
  destruct Hw as (q & Hq0 & Ew).
  destruct (query_reads r Hr) as (_ & Q & _). specialize (Q got q ra log (eq_sym Ew) Hq0). rewrite Hq in Q.
  assert (Hne : res <> Got tt) by (intros ->; exact Q). split; [exact Hne|].
  assert (Hp : exists p q, performs r = p ++ q /\ acts s = log ++ p /\ (performs r <> [] -> q <> []))
    by (destruct res; [contradiction|exact Q|exact Q]).
  destruct Hp as (p & q' & E & Ha & Hn). split.
  - exists p. split; [now exists q'|exact Ha].
  - intros Hne'. exists p. split; [|exact Ha]. exists q'. auto.
Qed.

(** Requests that are one step for the server are thus all or nothing. *)
Corollary C54_cut_request_not_executed r sa w sres got ra log s res :
  sendable r -> (forall ks, r <> MultiGet ks) -> (forall kvs, r <> MultiSet kvs) ->
  client_send r sa = (w, sres) -> (strict_prefix got w \/ (sres <> Sent /\ got = w)) ->
  query (mkR got ra log) = (s, res) -> acts s = log.
Proof.
  intros Hr Hg Hm Hs Hc Hq. destruct (C54_cut_request r sa w sres got ra log s res Hr Hs Hc Hq) as (_ & _ & H).
  assert (E : performs r = [Exec r]) by (destruct r; try reflexivity; [now destruct (Hg ks)|now destruct (Hm kvs)]).
  rewrite E in H. destruct H as (done & (q & Hq0 & Ed) & Ha); [discriminate|].
  destruct done as [|x done]; [now rewrite app_nil_r in Ha|].
  injection Ed as _ Ed. destruct done; [|discriminate]. cbn in Ed. congruence.
Qed.

(** Several requests one behind the other are told apart. *)
Theorem C54_requests_in_order rs : Forall sendable rs ->
  forall ws rest ra log s, Forall2 (fun r w => exists sa, client_send r sa = (w, Sent)) rs ws ->
  daemon (List.length rs) (mkR (concat ws ++ rest) ra log) = (s, Got tt) ->
  arrived s = rest /\ acts s = log ++ concat (map performs rs).
Proof.
  induction 1 as [|r rs Hr _ IH]; intros ws rest ra log s Hw Hd.
  - inversion Hw; subst. cbn in Hd. injection Hd as <-. cbn. now rewrite app_nil_r.
  - inversion Hw as [|? w ? ws' (sa & Hs) Hws]; subst. cbn [List.length daemon concat map] in Hd |- *.
    unfold rbind in Hd. rewrite <- app_assoc in Hd.
    destruct (query (mkR (w ++ concat ws' ++ rest) ra log)) as [s1 res] eqn:Eq.
    destruct (C54_request_arrives _ _ _ _ _ _ _ _ Hr Hs Eq) as [H1 _].
    destruct res as [[]|f|]; [|discriminate|discriminate]. destruct (H1 eq_refl) as [Ea Ec].
    destruct s1 as [a1 n1 c1]. cbn in Ea, Ec. subst a1 c1.
    destruct (IH _ _ _ _ _ Hws Hd) as [Ha Hc]. split; [exact Ha|]. rewrite Hc. now rewrite app_assoc.
Qed.

(** ** Replies *)
Definition reply_bytes (a : reply) : list ascii :=
  match a with
  | RBytes v => vec v | RInt z => i64 z | RReady b => le 1 (if b then 0 else 1) | RStop => le 1 0
  | RList vs => concat (map vec vs)
  end.
Lemma server_send_puts a : Puts (server_send a) (reply_bytes a).
Proof. destruct a; cbn [server_send reply_bytes]; [apply puts_vector|apply puts_bytes|apply puts_bytes|apply puts_bytes|apply puts_vectors]. Qed.
Lemma reads_if {B} (c : bool) (x y : R B) w b d : (if c then Reads x w b d else Reads y w b d) -> Reads (if c then x else y) w b d.
Proof. destruct c; auto. Qed.
Lemma client_recv_reads r a m : answer_to r a -> client_recv r = Some m -> Reads m (reply_bytes a) a [].
Proof.
  destruct r; cbn [client_recv]; intros Ha Em; try discriminate; injection Em as <-;
  destruct a; try contradiction; cbn [answer_to reply_bytes] in *.
  - apply (reads_map recvVector RBytes). now apply reads_vector.
  - apply (reads_map recvVector RBytes). now apply reads_vector.
  - apply (reads_map recvI64 RInt). now apply reads_i64.
  - destruct b.
    + apply reads_then with (a := 0%N); [apply reads_byte; reflexivity|apply reads_ret].
    + apply reads_then with (a := 1%N); [apply reads_byte; reflexivity|apply reads_ret].
  - apply reads_then with (a := 0%N); [apply reads_byte; reflexivity|apply reads_ret].
  - apply (reads_map recvI64 RInt). now apply reads_i64.
  - apply (reads_map recvI64 RInt). now apply reads_i64.
  - destruct Ha as [Hl Hs]. rewrite <- Hl. apply (reads_map (recvVectors _) RList). now apply reads_vectors.
Qed.

(** The answer a call reads is the answer the server sent, to the byte. *)
Theorem C54_reply_arrives r a sa w sa' rest ra s res :
  answer_to r a -> server_send a ([], sa) = ((w, sa'), Sent) ->
  forall m, client_recv r = Some m -> m (mkR (w ++ rest) ra []) = (s, res) ->
  forall a', res = Got a' -> a' = a /\ arrived s = rest.
Proof.
  intros Ha Hs m Hm Hr a' ->. destruct (server_send_puts a) as [P _]. specialize (P [] sa). rewrite Hs in P. cbn [app] in P. subst w.
  destruct (client_recv_reads r a m Ha Hm) as [M _]. specialize (M rest ra []). rewrite Hr in M.
  destruct M as (E & Er & _). auto.
Qed.
(** A call returns nothing before its whole answer is there. *)
Theorem C54_no_early_reply r a sa w sa' res got :
  answer_to r a -> server_send a ([], sa) = ((w, sa'), res) ->
  (strict_prefix got w \/ (res <> Sent /\ got = w)) ->
  forall m ra s a', client_recv r = Some m -> m (mkR got ra []) <> (s, Got a').
Proof.
  intros Ha Hs Hg m ra s a' Hm Hr. destruct (server_send_puts a) as [P _]. specialize (P [] sa). rewrite Hs in P.
  assert (Hw : exists q, q <> [] /\ reply_bytes a = got ++ q).
  { destruct Hg as [(q & Hq & ->)|[Hn ->]].
    - destruct res.
      + exists q. split; [exact Hq|]. now rewrite P.
      + destruct P as (p' & q' & E & Hq' & Eo). cbn [app] in Eo. subst p'. exists (q ++ q'). rewrite app_assoc. split; [destruct q; [congruence|discriminate]|exact E].
      + destruct P as (p' & q' & E & Hq' & Eo). cbn [app] in Eo. subst p'. exists (q ++ q'). rewrite app_assoc. split; [destruct q; [congruence|discriminate]|exact E].
    - destruct res; [congruence| |]; destruct P as (p' & q' & E & Hq' & Eo); cbn [app] in Eo; subst p'; exists q'; auto. }
  destruct Hw as (q & Hq & E).
  destruct (client_recv_reads r a m Ha Hm) as (_ & M & _). specialize (M got q ra [] E Hq). now rewrite Hr in M.
Qed.
(** Which calls wait for an answer *)
Theorem C54_who_reads r : client_recv r = None <-> ~ exists a, answer_to r a.
Proof.
  split.
  - intros H (a & Ha). destruct r; try discriminate; destruct a; exact Ha.
  - intros H. destruct r; try reflexivity; exfalso; apply H.
    + exists (RBytes []). reflexivity.
    + exists (RBytes []). reflexivity.
    + exists (RInt 0). cbn. lia.
    + exists (RReady true). exact I.
    + exists RStop. exact I.
    + exists (RInt 0). cbn. lia.
    + exists (RInt 0). cbn. lia.
    + exists (RList (map (fun _ => []) ks)). cbn. rewrite map_length. split; [reflexivity|].
      apply Forall_forall. intros x Hx. apply in_map_iff in Hx as (y & <- & _). reflexivity.
Qed.

(** ** Notifications *)
Definition note_bytes (m : note) : list ascii :=
  match m with
  | Registered => le 1 3
  | Changed c k o n => le 1 (change_byte c) ++ vec k ++ vec o ++ vec n
  end.
Lemma notify_puts m : Puts (notify m) (note_bytes m).
Proof.
  destruct m; cbn [notify note_bytes]; [apply puts_bytes|].
  apply puts_seq; [apply puts_bytes|]. apply puts_seq; [apply puts_vector|]. apply puts_seq; apply puts_vector.
Qed.
Lemma callback_reads m : note_fits m -> Reads callbackHandler (note_bytes m) (told m) [].
Proof.
  destruct m as [|c k o n]; intros H; unfold callbackHandler; cbn [note_bytes].
  - apply reads_then with (a := 3%N); [apply reads_byte; reflexivity|apply reads_ret].
  - destruct H as (Hk & Ho & Hn).
    apply reads_bind0 with (a := change_byte c); [apply reads_byte; destruct c; reflexivity|].
    replace (change_byte c =? 3)%N with false by (destruct c; reflexivity).
    apply reads_bind0 with (a := k); [now apply reads_string|].
    apply reads_bind0 with (a := o); [now apply reads_vector|].
    apply reads_then with (a := n); [now apply reads_vector|].
    replace (told (Changed c k o n)) with
      (Callback k (if (change_byte c =? 1)%N then None else Some o) (if (change_byte c =? 2)%N then None else Some n))
      by (destruct c; reflexivity).
    apply reads_ret.
Qed.
Lemma worker_reads ms : Forall note_fits ms -> Reads (worker (List.length ms)) (concat (map note_bytes ms)) (map told ms) [].
Proof.
  induction 1 as [|m ms Hm _ IH]; [apply reads_ret|]. cbn [List.length worker map concat].
  apply reads_bind0 with (a := told m); [now apply callback_reads|]. exact (reads_map _ (cons (told m)) _ _ _ IH).
Qed.
(** A watcher's worker sees the server's messages one by one, in order, each as it
    was sent. *)
Theorem C54_notifications_arrive ms ws ra rest s es :
  Forall note_fits ms ->
  Forall2 (fun m w => exists sa sa', notify m ([], sa) = ((w, sa'), Sent)) ms ws ->
  worker (List.length ms) (mkR (concat ws ++ rest) ra []) = (s, Got es) ->
  es = map told ms /\ arrived s = rest.
Proof.
  intros Hf H2 Hw.
  assert (E : concat ws = concat (map note_bytes ms)).
  { clear -H2. induction H2 as [|m w ms ws (sa & sa' & E) _ IH]; [reflexivity|]. cbn [map concat]. rewrite IH. f_equal.
    destruct (notify_puts m) as [P _]. specialize (P [] sa). rewrite E in P. exact P. }
  rewrite E in Hw. destruct (worker_reads ms Hf) as [M _]. specialize (M rest ra []). rewrite Hw in M.
  destruct M as (A & B & _). auto.
Qed.

(** ** Keys *)
Definition keys_of (r : request) : list key :=
  match r with
  | Set_ k _ | CompareSet k _ _ | Get k | Add k _ | WatchKey k | DeleteKey k | Append k _ => [k]
  | Check ks | Wait ks | MultiGet ks => ks
  | MultiSet kvs => map fst kvs
  | GetNumKeys => []
  end.
(** What the caller's keys become is one-to-one, and never the store's own
    counter of workers. *)
Theorem C54_keys r r' : map_keys keyPrefix r = map_keys keyPrefix r' -> r = r'.
Proof.
  assert (I1 : forall a b, keyPrefix a = keyPrefix b -> a = b) by (intros a b H; now injection H).
  assert (IL : forall a b, map keyPrefix a = map keyPrefix b -> a = b).
  { induction a as [|x a IH]; intros [|y b] H; try discriminate; [reflexivity|].
    cbn [map] in H. injection H as H1 H2. f_equal; [exact H1|now apply IH]. }
  destruct r, r'; cbn [map_keys]; intros H; try discriminate; try reflexivity;
  try (injection H as H1; intros; subst; f_equal; auto; fail).
  injection H as H. f_equal. revert kvs0 H. induction kvs as [|[x v] a IH]; intros [|[y v'] b] H; try discriminate; [reflexivity|].
  cbn [map fst snd] in H. injection H as H1 H2 H3. f_equal; [now subst|now apply IH].
Qed.
Theorem C54_user_keys_are_not_the_worker_count r : ~ In initKey (keys_of (map_keys keyPrefix r)).
Proof.
  assert (N : forall k, keyPrefix k <> initKey) by (intros k H; discriminate).
  assert (L : forall ks, ~ In initKey (map keyPrefix ks)).
  { intros ks H. apply in_map_iff in H as (k & E & _). exact (N k E). }
  destruct r; cbn [map_keys keys_of]; try (intros [H|[]]; exact (N _ H)); try apply L; try (intros []).
  rewrite map_map. cbn [fst]. rewrite <- (map_map fst keyPrefix). apply L.
Qed.

(** ** Concrete cases *)
Module Demo.
  Definition k := lit "/rank". Definition v := lit "10.0.0.1:7".
  Definition sa := [Interrupted; Moved 3; Moved 1; Interrupted; Moved 100].
  Example sent_in_pieces : snd (client_send (Set_ k v) sa) = Sent.
  Proof. reflexivity. Qed.
  Definition w := fst (client_send (Set_ k v) sa).
  Example read_in_pieces : query (mkR (w ++ w) (map Moved [5; 5; 5; 5; 5; 5; 5; 5; 5; 5; 5; 5]) []) =
    (mkR w [Moved 5; Moved 5; Moved 5; Moved 5] [Exec (Set_ k v)], Got tt).
  Proof. vm_compute. reflexivity. Qed.
  Example cut_off : query (mkR (firstn 20 w) (map Moved [5; 5; 5; 5; 5; 5; 5; 5; 5; 5]) []) = (mkR [] [Moved 5; Moved 5; Moved 5] [], RecvFault Reset).
  Proof. vm_compute. reflexivity. Qed.
  Definition ms := MultiSet [(lit "/a", lit "1"); (lit "/b", lit "2")].
  (** a writer that dies in the middle of a [multiSet] leaves half of it behind *)
  Example half_a_multiset :
    acts (fst (query (mkR (firstn 40 (wire_of ms)) (repeat (Moved 100) 20) []))) = [SetOne (lit "/a") (lit "1")].
  Proof. vm_compute. reflexivity. Qed.
  Example negative : fst (server_send (RInt (-5)) ([], [Moved 8])) = (i64 (-5), [])%list /\
    match client_recv (Add k 1) with Some m => snd (m (mkR (i64 (-5)) [Moved 8] [])) = Got (RInt (-5)) | None => False end.
  Proof. split; vm_compute; reflexivity. Qed.
  Example sendable_demo : sendable (map_keys keyPrefix (Set_ (lit "rank") v)) /\ sendable ms /\ sendable (Add k (-3)).
  Proof. repeat split; try reflexivity; repeat constructor; try reflexivity; cbn; lia. Qed.
  Example long_value_flushes_early :
    snd (client_send (Set_ k (repeat "x"%char 2000)) [Moved 3000; Moved 1]) = Sent.
  Proof. vm_compute. reflexivity. Qed.
End Demo.

Print Assumptions C54_request_arrives.
Print Assumptions C54_request_is_handled.
Print Assumptions C54_cut_request.
Print Assumptions C54_cut_request_not_executed.
Print Assumptions C54_requests_in_order.
Print Assumptions C54_reply_arrives.
Print Assumptions C54_no_early_reply.
Print Assumptions C54_who_reads.
Print Assumptions C54_notifications_arrive.
Print Assumptions C54_keys.
Print Assumptions C54_user_keys_are_not_the_worker_count.
