(** * C69: what cannot be transferred fails its own call, with the reason, and no other

    Reading guide.  Two parts.

    1. UnwindModel: [deserialize] with its handling of exceptions, for any serializers.  [loads] (UnwindSpec): loading component
       by component.  For messages: an exception raised while the contents of a message are loaded arrives as
       DeserializeMessageFailed ([UnwindModel.Failed]) with the id of the message and with that exception as its cause.

    2. LoadModel: calls over one connection.  [run arg_dumps arg_loads res_dumps res_loads tr s]: [tr] is what happened so far:
       [Called id]; [Executed id]: the pool has processed the call; the caller gets the result ([Done id]) or an
       exception ([Failed id reason]). *)
From Coq Require Import List Arith Bool Lia.
From Verif Require Import UnwindModel UnwindSpec UnwindProofs.
From Verif Require LoadModel.
Import ListNotations.

(** ** Part 1 *)
Section Part1.
  Variables Hd V E B Ctx : Type.
  Variable leaf : Ctx -> Hd -> list B -> (V + E) * Ctx.
  Variable node : Ctx -> Hd -> list V -> (V + E) * Ctx.
  Variable on_error : Hd -> nat -> E -> option E.

  (** [deserialize] does what [loads] says: it always ends, and with that outcome. *)
  Theorem C69_deserialize_outcome : forall buffers c hd s ss, exists r c' p',
    loads Hd V E B Ctx leaf node on_error buffers c 0 (Node hd s ss) r c' p' /\
    exists k, forall fuel, k <= fuel -> deserialize Hd V E B Ctx leaf node on_error fuel buffers c (Node hd s ss) =
      Some (match r with inl v => Returned v | inr e => Raised e end).
  Proof.
    intros buffers c hd s ss. destruct (outcome Hd V E B Ctx leaf node on_error buffers (Node hd s ss) c 0) as (r & c' & p' & L).
    exists r, c', p'. split; auto. eapply top; eauto.
  Qed.
End Part1.

Section Messages.
  Variables Id O V Ex B Ctx : Type.
  Notation hd := (mhead Id O).
  Notation exn := (exn Id Ex).
  Variable leaf : Ctx -> hd -> list B -> (V + exn) * Ctx.
  Variable node : Ctx -> hd -> list V -> (V + exn) * Ctx.
  Notation loads := (loads hd V exn B Ctx leaf node message_error).
  Notation fails_at := (fails_at hd V exn B Ctx leaf node message_error).
  Notation loads_all := (loads_all hd V exn B Ctx leaf node message_error).

  (** *** Specification *)
  (** No message is part of the tree *)
  Fixpoint no_message (t : tree hd) : Prop :=
    match t with
    | Leaf (Other _) _ => True
    | Node (Other _) s ss => no_message s /\ (fix all l := match l with [] => True | t :: l => no_message t /\ all l end) ss
    | _ => False
    end.
  Definition no_messages (l : list (tree hd)) : Prop := forall t, In t l -> no_message t.
  (** Some serializer other than that of messages raised it *)
  Definition raised_by_a_part (e : exn) : Prop := exists c o c',
    (exists bs, leaf c (Other o) bs = (inr e, c')) \/ (exists vs, node c (Other o) vs = (inr e, c')).

  (** *** Proofs *)
  Lemma all_no : forall ss, (fix all l := match l with [] => True | t :: l => no_message t /\ all l end) ss <-> no_messages ss.
  Proof.
    unfold no_messages. induction ss as [|t ss IH]; [split; [intros _ t []|auto]|]. rewrite IH. cbn [In]. split.
    - intros [A Q] x [<-|I]; auto.
    - intros Q. split; auto.
  Qed.
  Lemma parts_raise : forall buffers,
    (forall c p t r c' p', loads buffers c p t r c' p' -> no_message t -> forall e, r = inr e -> raised_by_a_part e) /\
    (forall c p ts vs c' p', loads_all buffers c p ts vs c' p' -> True) /\
    (forall c p ts i e c' p', fails_at buffers c p ts i e c' p' -> no_messages ts -> raised_by_a_part e).
  Proof.
    intros buffers. apply loads_mutind; auto.
    - intros. discriminate.
    - intros c p h n e c' L N e0 Q. injection Q as <-. destruct h; [contradiction|]. exists c, o, c'. eauto.
    - intros c p h s ss vs c' p' r c'' LA _ Nd N e ->. destruct h; [contradiction|]. exists c', o, c''. eauto.
    - intros c p h s ss i e c' p' FA IH N e0 Q. destruct h; [contradiction|]. cbn in Q. injection Q as <-.
      apply IH. destruct N as [N1 N2]. apply all_no in N2. intros t [<-|I]; auto.
    - intros c p t e c' p' ts L IH N. apply IH; auto. apply N. now left.
    - intros c p t v c' p' ts i e c'' p'' L _ FA IH N. apply IH. intros x I. apply N. now right.
  Qed.

  (** *** Theorem: the exception names the message and keeps the reason.

      The other case: all contents were loaded, but MessageSerializer.deserial itself raises (by C06 not for messages made by
      [serial]). *)
  Theorem C69_failure_names_the_message : forall buffers c id s ss e fuel, no_messages (s :: ss) ->
    deserialize hd V exn B Ctx leaf node message_error fuel buffers c (Node (Message id) s ss) = Some (Raised e) ->
    (exists cause, e = Failed id cause /\ raised_by_a_part cause) \/
    (exists c' vs c'', node c' (Message id) vs = (inr e, c'') /\ length vs = length (s :: ss)).
  Proof.
    intros buffers c id s ss e fuel N D.
    destruct (C69_deserialize_outcome _ _ _ _ _ leaf node message_error buffers c (Message id) s ss) as (r & c' & p' & L & k & K).
    assert (r = inr e).
    { assert (M : forall f m x, loop hd V exn B Ctx leaf node message_error f buffers m = Some x ->
        loop hd V exn B Ctx leaf node message_error (f + k) buffers m = Some x).
      { clear. induction f as [|f IH]; intros m x Q.
        - cbn in Q. destruct (stack m) eqn:St; [|discriminate]. injection Q as <-. destruct (0 + k); cbn; now rewrite St.
        - cbn [loop Nat.add] in *. destruct (stack m); auto. }
      specialize (K (fuel + k)). unfold deserialize in D, K.
      destruct (loop _ _ _ _ _ _ _ _ fuel buffers _) as [m|] eqn:Q; [|discriminate].
      apply M in Q. rewrite Q in K. rewrite D in K. specialize (K ltac:(lia)). destruct r; congruence. }
    subst r. inversion L; subst.
    - right. exists c'0, vs, c'. split; auto.
      match goal with LA : loads_all _ _ _ _ _ _ _ |- _ => clear - LA; revert LA; generalize (s :: ss); intros l LA; induction LA; cbn; auto end.
    - left. cbn. eexists. split; [reflexivity|]. eapply parts_raise; eauto.
  Qed.
End Messages.

(** ** Part 2 *)
Import LoadModel.
Section Part2.
  Variables arg_dumps arg_loads res_dumps res_loads : nat -> bool.
  Notation run := (run arg_dumps arg_loads res_dumps res_loads).
  Notation step := (step arg_dumps arg_loads res_dumps res_loads).

  (** *** Specification *)
  (** The reason given is true. *)
  Definition justified (id : nat) (r : reason) : Prop :=
    match r with
    | ArgDump => arg_dumps id = false
    | ArgLoad => arg_loads id = false
    | ResDump => res_dumps id = false
    | ResLoad => res_loads id = false
    | Closed => False
    end.
  Definition outcome_of (id : nat) (e : event) : bool :=
    match e with Done i | Failed i _ => i =? id | _ => false end.
  Definition outcomes (id : nat) (tr : list event) : list event := filter (outcome_of id) tr.

  (** *** Proofs *)
  Definition flow (s : st) : list nat := requests s ++ running s ++ map fst (replies s).

  Record I (tr : list event) (s : st) : Prop := {
    i_nodup : NoDup (table s);
    i_used : forall id, In (Called id) tr <-> In id (used s);
    i_sub : forall id, In id (table s) -> In id (used s);
    i_open : client_open s = true \/ table s = [];
    i_done : forall id, In id (used s) -> In id (table s) /\ outcomes id tr = [] \/ ~ In id (table s) /\ length (outcomes id tr) = 1;
    i_new : forall id, ~ In id (used s) -> outcomes id tr = [];
    i_back : client_open s = true -> forall id, In id (flow s) -> In id (table s);
    i_there : server_open s = true -> forall id, In id (table s) -> In id (flow s);
    i_once : NoDup (flow s);
    i_flow : forall id, In id (flow s) -> In id (used s) /\ arg_dumps id = true;
    i_load : forall id, In id (running s ++ map fst (replies s)) -> arg_loads id = true;
    i_rep : forall id r, In (id, r) (replies s) -> r = (if res_dumps id then Value else CouldNotSend) /\ In (Executed id) tr;
    i_exec : forall id, In (Executed id) tr -> arg_loads id = true /\ arg_dumps id = true /\ In id (used s) }.

  Lemma outcomes_app : forall id a b, outcomes id (a ++ b) = outcomes id a ++ outcomes id b.
  Proof. intros. apply filter_app. Qed.

  Lemma NoDup_rm : forall l x, NoDup l -> NoDup (remove Nat.eq_dec x l).
  Proof.
    induction l as [|y l IH]; intros x N; cbn; [constructor|]. inversion N; subst.
    destruct (Nat.eq_dec x y); auto. constructor; auto. intros Q. apply in_remove in Q. tauto.
  Qed.
  Lemma in_rm : forall l x y, In y (remove Nat.eq_dec x l) <-> In y l /\ y <> x.
  Proof.
    intros. split; [apply in_remove|]. intros [A B]. apply in_in_remove; auto.
  Qed.
  (** The list of the outcomes of [id] in the failures of a list of calls *)
  Lemma closed_outcomes : forall l id, NoDup l ->
    outcomes id (map (fun id => Failed id Closed) l) = if in_dec Nat.eq_dec id l then [Failed id Closed] else [].
  Proof.
    induction l as [|x l IH]; intros id N; [reflexivity|]. inversion N as [|? ? N1 N2]; subst.
    unfold outcomes in *. cbn [map filter outcome_of]. rewrite IH by auto.
    destruct (Nat.eqb_spec x id) as [->|Ne].
    - destruct (in_dec Nat.eq_dec id l); [contradiction|]. destruct (in_dec Nat.eq_dec id (id :: l)) as [|Q]; [reflexivity|]. elim Q. now left.
    - destruct (in_dec Nat.eq_dec id l) as [Q|Q]; destruct (in_dec Nat.eq_dec id (x :: l)) as [Q2|Q2]; auto.
      + elim Q2. now right.
      + destruct Q2; [congruence|contradiction].
  Qed.

  Lemma run_I : forall tr s, run tr s -> I tr s.
  Proof.
    induction 1 as [|tr s out s' R IH St].
    - constructor; cbn; try tauto; try constructor; intros; try discriminate; try contradiction; auto.
    - destruct IH as [A1 A2 A3 A4 A5 A6 A7 A8 A9 A10 A11 A12 A13]. unfold flow in *. destruct St as [s id Oc Nu Da|s id Oc Nu Da|s id rest So Rq La|s id rest So Rq La|s id l1 l2 Rn|s id r rest Oc Rp It|s Oc So].
      + (* call *)
        assert (NT : ~ In id (table s)) by auto.
        assert (NF : ~ In id (requests s ++ running s ++ map fst (replies s))) by (intros Q; apply A10 in Q; tauto).
        constructor; unfold flow; cbn [used table requests running replies server_open client_open].
        * constructor; auto.
        * intros x. rewrite in_app_iff, A2. cbn [In]. intuition congruence.
        * intros x [<-|Q]; [now left|right; auto].
        * auto.
        * intros x [<-|Q]; rewrite outcomes_app; cbn [outcomes filter outcome_of In]; rewrite app_nil_r.
          -- left. split; auto.
          -- destruct (A5 _ Q) as [[B C]|[B C]]; [left; auto|]. right. split; auto. intros [<-|W]; tauto.
        * intros x Q. rewrite outcomes_app. cbn [In] in Q. rewrite A6 by tauto. reflexivity.
        * intros _ x. rewrite !in_app_iff in *. cbn [In]. intros [[Q|[<-|[]]]|Q]; [right; apply A7; rewrite ?in_app_iff; auto|now left|].
          right. apply A7; auto. rewrite !in_app_iff. tauto.
        * intros So x [<-|Q]; rewrite !in_app_iff; cbn [In]; [tauto|]. apply A8 in Q; auto. rewrite !in_app_iff in Q. tauto.
        * rewrite <- app_assoc. cbn [app]. apply NoDup_Add with (a := id) (l := requests s ++ running s ++ map fst (replies s)); auto.
          apply Add_app.
        * intros x. rewrite !in_app_iff. cbn [In]. intros Q.
          assert (W : x = id \/ In x (requests s ++ running s ++ map fst (replies s))) by (rewrite !in_app_iff; intuition).
          destruct W as [->|W]; [split; auto|]. apply A10 in W. tauto.
        * auto.
        * intros x r Q. destruct (A12 _ _ Q). split; auto. apply in_or_app. auto.
        * intros x Q. apply in_app_iff in Q. destruct Q as [Q|[Q|[]]]; [|discriminate]. destruct (A13 _ Q) as (? & ? & ?). cbn [In]. auto.
      + (* call fails *)
        constructor; unfold flow; cbn [used table requests running replies server_open client_open]; auto.
        * intros x. rewrite in_app_iff, A2. cbn [In]. intuition congruence.
        * intros x Q. right. auto.
        * intros x [<-|Q]; rewrite outcomes_app; unfold outcomes; cbn [filter outcome_of].
          -- right. rewrite Nat.eqb_refl. fold (outcomes id tr). rewrite A6 by auto. auto.
          -- assert (Ne : id =? x = false) by (apply Nat.eqb_neq; intros ->; auto). rewrite Ne, app_nil_r. apply A5. exact Q.
        * intros x Q. cbn [In] in Q. rewrite outcomes_app, A6 by tauto. unfold outcomes; cbn [filter outcome_of].
          assert (Ne : id =? x = false) by (apply Nat.eqb_neq; intros ->; tauto). now rewrite Ne.
        * intros x Q. apply A10 in Q. cbn [In]. tauto.
        * intros x r Q. destruct (A12 _ _ Q). split; auto. apply in_or_app. auto.
        * intros x Q. apply in_app_iff in Q. destruct Q as [Q|[Q|[Q|[]]]]; try discriminate. destruct (A13 _ Q) as (? & ? & ?). cbn [In]. auto.
      + (* read *)
        rewrite app_nil_r. rewrite Rq in *. cbn [app] in *. inversion A9 as [|? ? N1 N2]; subst.
        constructor; cbn [used table requests running replies server_open client_open]; auto; try (unfold flow; cbn [used table requests running replies server_open client_open]).
        * intros Oc x Q. apply A7; auto. cbn [In]. rewrite !in_app_iff in *. cbn [In] in Q. intuition.
        * intros _ x Q. apply A8 in Q; auto. cbn [In] in Q. rewrite !in_app_iff in *. cbn [In]. intuition.
        * rewrite <- app_assoc. cbn [app]. apply NoDup_Add with (a := id) (l := rest ++ running s ++ map fst (replies s)); auto.
          rewrite !app_assoc. apply Add_app.
        * intros x Q. apply A10. cbn [In]. rewrite !in_app_iff in *. cbn [In] in Q. intuition.
        * intros x. rewrite !in_app_iff. cbn [In]. intros [[Q|[<-|[]]]|Q]; auto; apply A11; rewrite in_app_iff; auto.
      + (* read fails *)
        rewrite app_nil_r. rewrite Rq in *. cbn [app] in *. inversion A9 as [|? ? N1 N2]; subst.
        constructor; cbn [used table requests running replies server_open client_open]; auto; try (unfold flow; cbn [used table requests running replies server_open client_open]); auto.
        * intros Oc x Q. apply A7; auto. now right.
        * discriminate.
        * intros x Q. apply A10. now right.
      + (* run *)
        assert (Ne0 : forall x, outcomes x (tr ++ [Executed id]) = outcomes x tr) by (intros; rewrite outcomes_app; apply app_nil_r).
        rewrite Rn in *. rewrite <- !app_assoc in *. cbn [app] in *.
        assert (P : forall x, In x (requests s ++ l1 ++ id :: l2 ++ map fst (replies s)) <->
          In x (requests s ++ (l1 ++ l2) ++ map fst (replies s ++ [(id, if res_dumps id then Value else CouldNotSend)]))).
        { intros x. rewrite map_app. cbn [map fst]. rewrite !in_app_iff. cbn [In]. rewrite !in_app_iff. cbn [In]. tauto. }
        assert (P0 : forall x, In x (requests s ++ (l1 ++ l2) ++ map fst (replies s)) -> In x (requests s ++ l1 ++ id :: l2 ++ map fst (replies s))).
        { intros x. rewrite !in_app_iff. cbn [In]. rewrite !in_app_iff. tauto. }
        assert (AL : arg_loads id = true) by (apply A11; rewrite in_app_iff; right; now left).
        assert (AF : In id (used s) /\ arg_dumps id = true) by (apply A10; rewrite !in_app_iff; right; right; now left).
        assert (ND : NoDup (requests s ++ (l1 ++ l2) ++ map fst (replies s)) /\ ~ In id (requests s ++ (l1 ++ l2) ++ map fst (replies s))).
        { rewrite <- app_assoc, app_assoc. rewrite app_assoc in A9. apply NoDup_remove in A9. exact A9. }
        constructor; cbn [used table requests running replies server_open client_open]; unfold flow; cbn [used table requests running replies server_open client_open]; auto.
        * intros x. rewrite in_app_iff, A2. cbn [In]. intuition discriminate.
        * intros x Q. rewrite Ne0. auto.
        * intros x Q. rewrite Ne0. auto.
        * intros Oc x Q. apply A7; auto. destruct (server_open s); [now apply P|now apply P0].
        * intros So x Q. rewrite So. apply P. auto.
        * destruct (server_open s); [|tauto]. rewrite map_app. cbn [map fst].
          apply NoDup_Add with (a := id) (l := requests s ++ (l1 ++ l2) ++ map fst (replies s)); [|tauto].
          rewrite !app_assoc. pose proof (Add_app id (((requests s ++ l1) ++ l2) ++ map fst (replies s)) []) as Q. now rewrite app_nil_r in Q.
        * intros x Q. apply A10. destruct (server_open s); [now apply P|now apply P0].
        * intros x Q. apply A11. destruct (server_open s); rewrite ?map_app in Q; rewrite !in_app_iff in *; cbn [map fst In] in *; rewrite !in_app_iff in *; cbn [In] in *; tauto.
        * intros x r Q. rewrite in_app_iff. destruct (server_open s); [apply in_app_iff in Q; destruct Q as [Q|[Q|[]]]|].
          -- destruct (A12 _ _ Q). auto.
          -- injection Q as <- <-. cbn [In]. auto.
          -- destruct (A12 _ _ Q). auto.
        * intros x Q. apply in_app_iff in Q. destruct Q as [Q|[Q|[]]]; auto. injection Q as <-. tauto.
      + (* reply *)
        rewrite Rp in *. cbn [map fst] in *.
        set (ev := match r with Value => if res_loads id then Done id else Failed id ResLoad | CouldNotSend => Failed id ResDump end).
        assert (OE : forall x, outcomes x [ev] = if id =? x then [ev] else []).
        { intros x. unfold ev, outcomes. destruct r; [destruct (res_loads id)|]; cbn [filter outcome_of]; destruct (id =? x); reflexivity. }
        assert (NE1 : forall x, ev <> Called x) by (intros x; unfold ev; destruct r; [destruct (res_loads id)|]; discriminate).
        assert (NE2 : forall x, ev <> Executed x) by (intros x; unfold ev; destruct r; [destruct (res_loads id)|]; discriminate).
        assert (ND : NoDup (requests s ++ running s ++ map fst rest) /\ ~ In id (requests s ++ running s ++ map fst rest)).
        { rewrite app_assoc in *. apply NoDup_remove in A9. exact A9. }
        assert (P0 : forall x, In x (requests s ++ running s ++ id :: map fst rest) <-> In x (requests s ++ running s ++ map fst rest) \/ x = id).
        { intros x. rewrite !in_app_iff. cbn [In]. intuition. }
        constructor; cbn [used table requests running replies server_open client_open]; unfold flow; cbn [used table requests running replies server_open client_open]; auto.
        * now apply NoDup_rm.
        * intros x. rewrite in_app_iff, A2. cbn [In]. split; [intros [Q|[Q|[]]]; auto; elim (NE1 _ Q)|auto].
        * intros x Q. apply in_rm in Q. apply A3. tauto.
        * intros x Q. rewrite outcomes_app, OE, in_rm. destruct (Nat.eqb_spec id x) as [<-|Ne].
          -- right. split; [tauto|]. destruct (A5 _ Q) as [[_ ->]|[B _]]; [reflexivity|contradiction].
          -- rewrite app_nil_r. destruct (A5 _ Q) as [B|[B C]]; [left; intuition|right; tauto].
        * intros x Q. rewrite outcomes_app, OE, A6 by auto. destruct (Nat.eqb_spec id x) as [<-|Ne]; [|reflexivity].
          elim Q. auto.
        * intros _ x Q. apply in_rm. split; [apply A7; auto; apply P0; auto|]. intros ->. tauto.
        * intros So x Q. apply in_rm in Q. destruct Q as [Q Ne]. apply A8 in Q; auto. apply P0 in Q. tauto.
        * tauto.
        * intros x Q. apply A10. apply P0. auto.
        * intros x Q. apply A11. rewrite !in_app_iff in *. cbn [In]. tauto.
        * intros x r' Q. destruct (A12 x r') as [W1 W2]; [now right|]. split; auto. apply in_or_app. auto.
        * intros x Q. apply in_app_iff in Q. destruct Q as [Q|[Q|[]]]; auto. elim (NE2 _ Q).
      + (* eof *)
        assert (NC : forall x, In (Called x) (map (fun id => Failed id Closed) (table s)) -> False).
        { intros x Q. apply in_map_iff in Q. destruct Q as (? & ? & _). discriminate. }
        assert (NX : forall x, In (Executed x) (map (fun id => Failed id Closed) (table s)) -> False).
        { intros x Q. apply in_map_iff in Q. destruct Q as (? & ? & _). discriminate. }
        constructor; cbn [used table requests running replies server_open client_open]; unfold flow; cbn [used table requests running replies server_open client_open map]; rewrite ?app_nil_r; auto.
        * constructor.
        * intros x. rewrite in_app_iff, A2. split; [intros [Q|Q]; auto; elim (NC _ Q)|auto].
        * intros x [].
        * intros x Q. rewrite outcomes_app, closed_outcomes by auto. right. split; [intros []|].
          destruct (A5 _ Q) as [[B ->]|[B C]]; destruct (in_dec Nat.eq_dec x (table s)); try contradiction; cbn; auto.
          now rewrite app_nil_r.
        * intros x Q. rewrite outcomes_app, closed_outcomes, A6 by auto.
          destruct (in_dec Nat.eq_dec x (table s)) as [W|W]; auto. elim Q. auto.
        * discriminate.
        * intros So' x [].
        * rewrite app_assoc in A9. clear - A9. induction (requests s ++ running s) as [|x l IH]; [constructor|].
          inversion A9; subst. constructor; auto. rewrite in_app_iff in *. tauto.
        * intros x Q. apply A10. rewrite !in_app_iff in *. tauto.
        * intros x Q. apply A11. rewrite in_app_iff. auto.
        * intros x r [].
        * intros x Q. apply in_app_iff in Q. destruct Q as [Q|Q]; auto. elim (NX _ Q).
  Qed.

  (** The client finds the connection closed only if some argument could not be loaded. *)
  Lemma closed_why : forall tr s, run tr s -> server_open s = false ->
    exists id, In (Called id) tr /\ arg_dumps id = true /\ arg_loads id = false.
  Proof.
    induction 1 as [|tr s out s' R IH St]; intros C; [discriminate|].
    assert (G : server_open s = false -> exists id, In (Called id) (tr ++ out) /\ arg_dumps id = true /\ arg_loads id = false).
    { intros Q. destruct (IH Q) as (id & A & B). exists id. split; auto. apply in_or_app. auto. }
    pose proof (run_I _ _ R) as J. destruct St; cbn [server_open] in C; auto.
    destruct (i_flow _ _ J id) as [U D]; [unfold flow; rewrite H0; now left|].
    exists id. split; auto. rewrite app_nil_r. now apply (i_used _ _ J).
  Qed.

  (** *** Theorems *)

  (** A reason other than ServerClosed is always true. *)
  Theorem C69_reasons_are_true_partial : forall tr s, run tr s -> forall id r, In (Failed id r) tr -> r = Closed \/ justified id r.
  Proof.
    induction 1 as [|tr s out s' R IH St]; intros x r Q; [destruct Q|].
    apply in_app_iff in Q. destruct Q as [Q|Q]; [auto|]. pose proof (run_I _ _ R) as J.
    destruct St as [s id Oc Nu Da|s id Oc Nu Da|s id rest So Rq La|s id rest So Rq La|s id l1 l2 Rn|s id rp rest Oc Rp It|s Oc So]; cbn [In] in Q.
    - destruct Q as [Q|[]]. discriminate.
    - destruct Q as [Q|[Q|[]]]; [discriminate|]. injection Q as <- <-. right. exact Da.
    - destruct Q.
    - destruct Q.
    - destruct Q as [Q|[]]. discriminate.
    - destruct Q as [Q|[]]. destruct (i_rep _ _ J id rp) as [Er _]; [rewrite Rp; now left|].
      destruct rp; [destruct (res_loads id) eqn:L; [discriminate|]|]; injection Q as <- <-; right; cbn; auto.
      destruct (res_dumps id); [discriminate|reflexivity].
    - apply in_map_iff in Q. destruct Q as (y & Q & _). injection Q as <- <-. auto.
  Qed.

  (** If all arguments can be loaded, whatever is the matter with arguments that cannot be serialized and with results: calls fail
      for their own reasons only. *)
  Theorem C69_own_failures_partial : forall tr s, run tr s ->
    (forall id, In (Called id) tr -> arg_dumps id = true -> arg_loads id = true) ->
    forall id r, In (Failed id r) tr -> justified id r.
  Proof.
    intros tr s R OK id r Q. destruct (C69_reasons_are_true_partial _ _ R _ _ Q) as [->|]; [|auto]. exfalso.
    induction R as [|tr s out s' R IH St]; [destruct Q|].
    assert (OK' : forall i, In (Called i) tr -> arg_dumps i = true -> arg_loads i = true) by (intros i W; apply OK; apply in_or_app; auto).
    apply in_app_iff in Q. destruct Q as [Q|Q]; [auto|].
    destruct St as [s id0 Oc Nu Da|s id0 Oc Nu Da|s id0 rest So Rq La|s id0 rest So Rq La|s id0 l1 l2 Rn|s id0 rp rest Oc Rp It|s Oc So]; cbn [In] in Q.
    - destruct Q as [Q|[]]. discriminate.
    - destruct Q as [Q|[Q|[]]]; discriminate.
    - destruct Q.
    - destruct Q.
    - destruct Q as [Q|[]]. discriminate.
    - destruct Q as [Q|[]]. destruct rp; [destruct (res_loads id0)|]; discriminate.
    - destruct (closed_why _ _ R So) as (i & A & B & C). rewrite (OK' _ A B) in C. discriminate.
  Qed.

  (** A result that is delivered is the result of the call's execution. *)
  Theorem C69_done : forall tr s, run tr s -> forall id, In (Done id) tr ->
    In (Executed id) tr /\ arg_dumps id = true /\ arg_loads id = true /\ res_dumps id = true /\ res_loads id = true.
  Proof.
    induction 1 as [|tr s out s' R IH St]; intros x Q; [destruct Q|].
    rewrite in_app_iff. apply in_app_iff in Q. destruct Q as [Q|Q]; [apply IH in Q; tauto|]. pose proof (run_I _ _ R) as J.
    destruct St as [s id Oc Nu Da|s id Oc Nu Da|s id rest So Rq La|s id rest So Rq La|s id l1 l2 Rn|s id rp rest Oc Rp It|s Oc So]; cbn [In] in Q.
    - destruct Q as [Q|[]]. discriminate.
    - destruct Q as [Q|[Q|[]]]; discriminate.
    - destruct Q.
    - destruct Q.
    - destruct Q as [Q|[]]. discriminate.
    - destruct Q as [Q|[]]. destruct (i_rep _ _ J id rp) as [Er Ex]; [rewrite Rp; now left|].
      destruct rp; [|discriminate]. destruct (res_loads id) eqn:L; [|discriminate]. injection Q as <-.
      destruct (i_exec _ _ J _ Ex) as (X1 & X2 & _). destruct (res_dumps id); [|discriminate]. tauto.
    - apply in_map_iff in Q. destruct Q as (y & Q & _). discriminate.
  Qed.

  (** A call whose argument cannot be loaded or serialized is not executed. *)
  Theorem C69_bad_argument_not_executed : forall tr s, run tr s -> forall id, In (Executed id) tr ->
    arg_dumps id = true /\ arg_loads id = true.
  Proof. intros tr s R id Q. destruct (i_exec _ _ (run_I _ _ R) _ Q) as (A & B & _). auto. Qed.

  (** Every call has at most one outcome, and can still get one. *)
  Theorem C69_at_most_one_outcome : forall tr s, run tr s -> forall id, length (outcomes id tr) <= 1.
  Proof.
    intros tr s R id. pose proof (run_I _ _ R) as J. destruct (in_dec Nat.eq_dec id (used s)) as [U|U].
    - destruct (i_done _ _ J _ U) as [[_ ->]|[_ ->]]; cbn; lia.
    - rewrite (i_new _ _ J _ U). cbn. lia.
  Qed.

  Definition not_call (e : event) : Prop := match e with Called _ => False | _ => True end.

  Theorem C69_no_call_hangs : forall tr s, run tr s -> exists more s', run (tr ++ more) s' /\ Forall not_call more /\
    forall id, In (Called id) tr -> length (outcomes id (tr ++ more)) = 1.
  Proof.
    assert (G : forall n tr s, run tr s -> 3 * length (requests s) + 2 * length (running s) + length (replies s) <= n ->
      exists more s', run (tr ++ more) s' /\ Forall not_call more /\ table s' = []).
    { assert (END : forall tr s, run tr s -> server_open s = false -> exists more s', run (tr ++ more) s' /\ Forall not_call more /\ table s' = []).
      { intros tr s R So. pose proof (run_I _ _ R) as J. destruct (i_open _ _ J) as [Oc|E].
        - eexists _, _. split; [eapply run_step; [exact R|apply s_eof; auto]|]. split; [|reflexivity].
          apply Forall_forall. intros e Q. apply in_map_iff in Q. destruct Q as (? & <- & _). exact Logic.I.
        - exists [], s. rewrite app_nil_r. auto. }
      induction n as [n IH] using lt_wf_ind. intros tr s R L. pose proof (run_I _ _ R) as J.
      destruct (server_open s) eqn:So; [|eapply END; eauto].
      destruct (table s) as [|a tb] eqn:T; [exists [], s; rewrite app_nil_r; auto|].
      assert (Oc : client_open s = true) by (destruct (i_open _ _ J); [auto|congruence]).
      assert (CONT : forall out s1, step s out s1 -> Forall not_call out ->
        3 * length (requests s1) + 2 * length (running s1) + length (replies s1) < n ->
        exists more s', run (tr ++ more) s' /\ Forall not_call more /\ table s' = []).
      { intros out s1 St NC Ln. destruct (IH _ Ln (tr ++ out) s1) as (more & s' & R' & F & E); [eapply run_step; eauto|lia|].
        exists (out ++ more), s'. rewrite app_assoc. split; auto. split; auto. apply Forall_app. auto. }
      destruct (requests s) as [|id rest] eqn:Rq.
      - destruct (running s) as [|id rest] eqn:Rn.
        + destruct (replies s) as [|[id r] rest] eqn:Rp.
          * exfalso. pose proof (i_there _ _ J So a) as Q. unfold flow in Q. rewrite Rq, Rn, Rp, T in Q. cbn in Q. tauto.
          * eapply CONT; [apply (s_reply _ _ _ _ s id r rest); auto|..].
            -- apply (i_back _ _ J Oc). unfold flow. rewrite Rq, Rn, Rp. now left.
            -- constructor; [|constructor]. destruct r; [destruct (res_loads id)|]; exact Logic.I.
            -- cbn [requests running replies]. rewrite Rq, Rn. cbn [length] in *. lia.
        + eapply CONT; [apply (s_run _ _ _ _ s id [] rest); auto|..].
          * constructor; [exact Logic.I|constructor].
          * cbn [requests running replies app]. rewrite So, Rq, app_length. cbn [length] in *. lia.
      - destruct (arg_loads id) eqn:AL.
        + eapply CONT; [apply (s_read _ _ _ _ s id rest); auto|constructor|].
          cbn [requests running replies]. rewrite app_length. cbn [length] in *. lia.
        + assert (R1 : run (tr ++ []) (mk (used s) (table s) rest (running s) (replies s) false (client_open s))).
          { eapply run_step; [exact R|]. eapply s_read_fails; eauto. }
          rewrite app_nil_r in R1. exact (END _ _ R1 eq_refl). }
    intros tr s R. destruct (G _ _ _ R (Nat.le_refl _)) as (more & s' & R' & F & E). exists more, s'. split; auto. split; auto.
    intros id C. pose proof (run_I _ _ R') as J. assert (U : In id (used s')) by (apply (i_used _ _ J); apply in_or_app; auto).
    destruct (i_done _ _ J _ U) as [[Q _]|[_ Q]]; auto. rewrite E in Q. destruct Q.
  Qed.

  (** *** The property in full *)
  Definition C69_claim : Prop := forall tr s, run tr s -> forall id r, In (Failed id r) tr -> justified id r.
End Part2.

(** *** The full property is false *)
Module Demo.
  (** Call 0 has an argument that the pool cannot load. *)
  Definition al (id : nat) : bool := match id with 0 => false | _ => true end.
  Definition yes (id : nat) : bool := true.
  Definition one : st := mk [0; 1] [0; 1] [0] [1] [] true true.
  Definition two : st := mk [0; 1] [0; 1] [] [1] [] false true.

  (** Call 1 is running when the pool reads call 0: both fail with ServerClosed, and call 1 is
      executed. *)
  Example innocent : run yes al yes yes [Called 1; Called 0; Executed 1; Failed 0 Closed; Failed 1 Closed] (mk [0; 1] [] [] [] [] false false).
  Proof.
    apply (run_step yes al yes yes [Called 1; Called 0; Executed 1] (mk [0; 1] [0; 1] [] [] [] false true) [Failed 0 Closed; Failed 1 Closed]).
    2: { apply (s_eof yes al yes yes (mk [0; 1] [0; 1] [] [] [] false true)); reflexivity. }
    apply (run_step yes al yes yes [Called 1; Called 0] two [Executed 1]).
    2: { apply (s_run yes al yes yes two 1 [] []). reflexivity. }
    change [Called 1; Called 0] with ([Called 1; Called 0] ++ []).
    apply (run_step yes al yes yes [Called 1; Called 0] one []).
    2: { apply (s_read_fails yes al yes yes one 0 []); reflexivity. }
    apply (run_step yes al yes yes [Called 1] (mk [1] [1] [] [1] [] true true) [Called 0]).
    2: { apply (s_call yes al yes yes (mk [1] [1] [] [1] [] true true) 0); cbn; auto. intuition discriminate. }
    change [Called 1] with ([Called 1] ++ []).
    apply (run_step yes al yes yes [Called 1] (mk [1] [1] [1] [] [] true true) []).
    2: { apply (s_read yes al yes yes (mk [1] [1] [1] [] [] true true) 1 []); reflexivity. }
    apply (run_step yes al yes yes [] start [Called 1]); [constructor|].
    apply (s_call yes al yes yes start 1); cbn; auto.
  Qed.

  (** The hypotheses of the partial theorems are met by calls that fail: results of 1 cannot be sent, of 2 not be loaded. *)
  Definition rd (id : nat) : bool := match id with 1 => false | _ => true end.
  Definition rl (id : nat) : bool := match id with 2 => false | _ => true end.
  Definition tr2 : list event := [Called 1; Called 2; Called 3; Executed 2; Executed 1; Executed 3; Failed 2 ResLoad; Failed 1 ResDump; Done 3].
  Example mixed : run yes yes rd rl tr2 (mk [3; 2; 1] [] [] [] [] true true).
  Proof.
    apply (run_step yes yes rd rl (firstn 8 tr2) (mk [3; 2; 1] [3] [] [] [(3, Value)] true true) [Done 3]).
    2: { apply (s_reply yes yes rd rl (mk [3; 2; 1] [3] [] [] [(3, Value)] true true) 3 Value []); cbn; auto. }
    apply (run_step yes yes rd rl (firstn 7 tr2) (mk [3; 2; 1] [3; 1] [] [] [(1, CouldNotSend); (3, Value)] true true) [Failed 1 ResDump]).
    2: { apply (s_reply yes yes rd rl (mk [3; 2; 1] [3; 1] [] [] [(1, CouldNotSend); (3, Value)] true true) 1 CouldNotSend [(3, Value)]); cbn; auto. }
    apply (run_step yes yes rd rl (firstn 6 tr2) (mk [3; 2; 1] [3; 2; 1] [] [] [(2, Value); (1, CouldNotSend); (3, Value)] true true) [Failed 2 ResLoad]).
    2: { apply (s_reply yes yes rd rl (mk [3; 2; 1] [3; 2; 1] [] [] [(2, Value); (1, CouldNotSend); (3, Value)] true true) 2 Value [(1, CouldNotSend); (3, Value)]); cbn; auto. }
    apply (run_step yes yes rd rl (firstn 5 tr2) (mk [3; 2; 1] [3; 2; 1] [] [3] [(2, Value); (1, CouldNotSend)] true true) [Executed 3]).
    2: { apply (s_run yes yes rd rl (mk [3; 2; 1] [3; 2; 1] [] [3] [(2, Value); (1, CouldNotSend)] true true) 3 [] []); reflexivity. }
    apply (run_step yes yes rd rl (firstn 4 tr2) (mk [3; 2; 1] [3; 2; 1] [] [1; 3] [(2, Value)] true true) [Executed 1]).
    2: { apply (s_run yes yes rd rl (mk [3; 2; 1] [3; 2; 1] [] [1; 3] [(2, Value)] true true) 1 [] [3]); reflexivity. }
    apply (run_step yes yes rd rl (firstn 3 tr2) (mk [3; 2; 1] [3; 2; 1] [] [1; 2; 3] [] true true) [Executed 2]).
    2: { apply (s_run yes yes rd rl (mk [3; 2; 1] [3; 2; 1] [] [1; 2; 3] [] true true) 2 [1] [3]); reflexivity. }
    change (firstn 3 tr2) with (((firstn 3 tr2 ++ []) ++ []) ++ []).
    eapply (run_step yes yes rd rl _ (mk [3; 2; 1] [3; 2; 1] [3] [1; 2] [] true true) []).
    2: { apply (s_read yes yes rd rl (mk [3; 2; 1] [3; 2; 1] [3] [1; 2] [] true true) 3 []); reflexivity. }
    eapply (run_step yes yes rd rl _ (mk [3; 2; 1] [3; 2; 1] [2; 3] [1] [] true true) []).
    2: { apply (s_read yes yes rd rl (mk [3; 2; 1] [3; 2; 1] [2; 3] [1] [] true true) 2 [3]); reflexivity. }
    eapply (run_step yes yes rd rl _ (mk [3; 2; 1] [3; 2; 1] [1; 2; 3] [] [] true true) []).
    2: { apply (s_read yes yes rd rl (mk [3; 2; 1] [3; 2; 1] [1; 2; 3] [] [] true true) 1 [2; 3]); reflexivity. }
    apply (run_step yes yes rd rl [Called 1; Called 2] (mk [2; 1] [2; 1] [1; 2] [] [] true true) [Called 3]).
    2: { apply (s_call yes yes rd rl (mk [2; 1] [2; 1] [1; 2] [] [] true true) 3); cbn; auto. intuition discriminate. }
    apply (run_step yes yes rd rl [Called 1] (mk [1] [1] [1] [] [] true true) [Called 2]).
    2: { apply (s_call yes yes rd rl (mk [1] [1] [1] [] [] true true) 2); cbn; auto. intuition discriminate. }
    apply (run_step yes yes rd rl [] start [Called 1]); [constructor|].
    apply (s_call yes yes rd rl start 1); cbn; auto.
  Qed.
  Example mixed_justified : forall id r, In (Failed id r) tr2 -> justified yes yes rd rl id r.
  Proof. apply (C69_own_failures_partial _ _ _ _ _ _ mixed). reflexivity. Qed.

  (** A message with two contents of which the second is a list whose second item fails *)
  Definition lf (c : unit) (h : mhead nat nat) (bs : list nat) : (nat + exn nat nat) * unit :=
    match h with Other 9 => (inr (Plain 9), c) | _ => (inl (length bs), c) end.
  Definition nd (c : unit) (h : mhead nat nat) (vs : list nat) : (nat + exn nat nat) * unit := (inl (length vs), c).
  Definition tree1 : tree (mhead nat nat) :=
    Node (Message 7) (Leaf (Other 1) 2) [Node (Other 0) (Leaf (Other 1) 1) [Leaf (Other 9) 1; Leaf (Other 1) 1]].
  Example fails : deserialize _ nat (exn nat nat) nat unit lf nd message_error 20 [5; 6; 7; 8] tt tree1 = Some (Raised (UnwindModel.Failed 7 (Plain 9))).
  Proof. reflexivity. Qed.
  Example fails_hypotheses : no_messages nat nat [Leaf (Other 1) 2; Node (Other 0) (Leaf (Other 1) 1) [Leaf (Other 9) 1; Leaf (Other 1) 1]].
  Proof. intros t [<-|[<-|[]]]; cbn; tauto. Qed.
End Demo.

Theorem C69_refuted : ~ C69_claim Demo.yes Demo.al Demo.yes Demo.yes.
Proof. intros C. exact (C _ _ Demo.innocent 1 Closed (or_intror (or_intror (or_intror (or_intror (or_introl eq_refl)))))). Qed.

Print Assumptions C69_deserialize_outcome.
Print Assumptions C69_failure_names_the_message.
Print Assumptions C69_reasons_are_true_partial.
Print Assumptions C69_own_failures_partial.
Print Assumptions C69_done.
Print Assumptions C69_bad_argument_not_executed.
Print Assumptions C69_at_most_one_outcome.
Print Assumptions C69_no_call_hangs.
Print Assumptions C69_refuted.
