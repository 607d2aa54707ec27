(** * C58: an error raised by an actor reaches the caller as itself

    How to read.  [travel hops e] is what the last caller catches when an actor
    raises [e] and the calls in between do not catch it; [hops] are the pools the
    reply leaves, first the one that raised it.  [getattr x n] is what Python
    answers for the attribute. *)
From Coq Require Import List Bool Arith Lia.
From Verif Require Import ErrorModel.
Import ListNotations.

(** ** Specification *)
Definition raised_by_user (e : exn) : Prop := is_wrapped e = false.
Definition origin (h : hop) : nat * nat := match h with InProcess a p | Socket a p => (a, p) end.
Inductive mentions (t : text) : text -> Prop :=
| m_itself : mentions t t
| m_label a p u : mentions t u -> mentions t (Label a p u)
| m_nopickle u : mentions t u -> mentions t (NoPickle u)
| m_notsent u : mentions t u -> mentions t (NotSent u).
(** The property: same class, same attributes, the text with the origin in front. *)
Definition faithful (h : hop) (e x : exn) : Prop :=
  klass_of x = klass_of e /\ str x = Label (fst (origin h)) (snd (origin h)) (str e) /\
  forall n, getattr e n <> None -> getattr x n = getattr e n.
Definition claim : Prop := forall h hops e, raised_by_user e -> is_cancelled (klass_of e) = false ->
  faithful h e (travel (h :: hops) e).
(** Classes whose instances can be pickled, rebuilt and wrapped *)
Definition portable (k : klass) : Prop :=
  dumping_of k = Dumps /\ loads k = true /\ bare_new k = true /\ is_cancelled k = false.
(** Attributes that are not set by the pool, are not C fields, and are not set over a default of the class *)
Definition transparent (e : exn) (n : attr) : Prop :=
  n <> a_address /\ n <> a_pid /\ is_native (klass_of e) n = false /\
  match e with Plain k _ _ dict _ => assoc dict n = None \/ assoc (defaults k) n = None | Wrapped _ _ _ => False end.

(** ** Proofs *)
Lemma hop_wraps h e : raised_by_user e -> portable (klass_of e) ->
  one_hop h e = Wrapped (fst (origin h)) (snd (origin h)) e.
Proof.
  intros Hu (Hd & Hl & Hb & Hc). unfold raised_by_user in Hu. destruct h as [a p|a p]; cbn [one_hop origin fst snd].
  - unfold as_instanceof_cause, error_processor, wrap. cbn. now rewrite Hu, Hc, Hb.
  - unfold serial, serial_error, error_processor. cbn. rewrite Hd, Hu. cbn. unfold deserial. cbn. rewrite Hl. cbn.
    unfold as_instanceof_cause, wrap. cbn. now rewrite Hc, Hb.
Qed.
Lemma hop_keeps h a p e : portable (klass_of e) -> one_hop h (Wrapped a p e) = Wrapped a p e.
Proof.
  intros (Hd & Hl & Hb & Hc). destruct h as [b q|b q]; cbn [one_hop].
  - reflexivity.
  - unfold serial, serial_error, error_processor. cbn. rewrite Hd. cbn. unfold deserial. cbn. now rewrite Hl.
Qed.
Lemma travel_portable h hops e : raised_by_user e -> portable (klass_of e) ->
  travel (h :: hops) e = Wrapped (fst (origin h)) (snd (origin h)) e.
Proof.
  intros Hu Hp. unfold travel. cbn. rewrite (hop_wraps h e Hu Hp). induction hops as [|x hops IH]; [reflexivity|].
  cbn. now rewrite hop_keeps.
Qed.

(** ** Theorems *)
(** A portable exception arrives through any number of pools as an instance of its
    class, labelled once, with the pool that raised it; its arguments and its
    transparent attributes can be read. *)
Theorem C58_arrives_partial h hops e :
  raised_by_user e -> portable (klass_of e) ->
  let x := travel (h :: hops) e in
  klass_of x = klass_of e /\ str x = Label (fst (origin h)) (snd (origin h)) (str e) /\
  getattr x a_args = getattr e a_args /\
  getattr x a_address = Some (Some (fst (origin h))) /\ getattr x a_pid = Some (Some (snd (origin h))) /\
  forall n, transparent e n -> getattr x n = getattr e n.
Proof.
  intros Hu Hp x. unfold x. rewrite travel_portable by assumption. cbn. repeat (split; [reflexivity|]).
  intros n (H1 & H2 & H3 & H4).
  destruct e as [k t args dict fields|]; [|destruct H4]. cbn in *.
  destruct (n =? a_args) eqn:E0; [reflexivity|]. apply Nat.eqb_neq in H1, H2. rewrite H1, H2, H3.
  destruct H4 as [H4|H4].
  - rewrite H4. now destruct (assoc (defaults k) n).
  - now rewrite H4.
Qed.
(** The same in terms of what the actor put into the exception: arguments, attributes that it
    set, defaults of the class, names that nobody set; fields of the C structure read None. *)
Lemma assoc_in l n v : NoDup (map fst l) -> In (n, v) l -> assoc l n = Some v.
Proof.
  induction l as [|[m w] l IH]; cbn; intros ND H; [destruct H|]. inversion ND; subst.
  destruct H as [E|H]; [injection E as -> ->; now rewrite Nat.eqb_refl|].
  destruct (Nat.eqb_spec m n) as [->|N]; [|auto]. exfalso. apply H2. change n with (fst (n, v)). now apply in_map.
Qed.
Lemma assoc_out l n : ~ In n (map fst l) -> assoc l n = None.
Proof.
  induction l as [|[m w] l IH]; cbn; intros H; [reflexivity|].
  destruct (Nat.eqb_spec m n) as [->|N]; [tauto|]. apply IH. tauto.
Qed.
Lemma is_native_in k n : is_native k n = true <-> In n (natives k).
Proof.
  unfold is_native. rewrite existsb_exists. split.
  - intros (x & H & E). apply Nat.eqb_eq in E. now subst.
  - intros H. exists n. split; [exact H|apply Nat.eqb_refl].
Qed.
Theorem C58_values_arrive_partial h hops k txt args dict fields :
  portable k ->
  let x := travel (h :: hops) (Plain k txt args dict fields) in
  getattr x a_args = Some (Some args) /\
  forall n, n <> a_args -> n <> a_address -> n <> a_pid ->
    (In n (natives k) -> getattr x n = Some None) /\
    (~ In n (natives k) ->
       (forall v, In (n, v) (defaults k) -> NoDup (map fst (defaults k)) -> getattr x n = Some (Some v)) /\
       (forall v, In (n, v) dict -> NoDup (map fst dict) -> ~ In n (map fst (defaults k)) -> getattr x n = Some (Some v)) /\
       (~ In n (map fst dict) -> ~ In n (map fst (defaults k)) -> getattr x n = None)).
Proof.
  intros Hp x. unfold x. rewrite travel_portable; [|reflexivity|exact Hp]. split; [reflexivity|].
  intros n H0 H1 H2. apply Nat.eqb_neq in H0, H1, H2. cbn [getattr klass_of]. rewrite H0, H1, H2. split.
  - intros H. apply is_native_in in H. now rewrite H.
  - intros H. rewrite <- is_native_in in H. apply not_true_is_false in H. rewrite H. repeat split.
    + intros v Hv ND. now rewrite (assoc_in _ _ _ ND Hv).
    + intros v Hv ND Hd. now rewrite (assoc_out _ _ Hd), (assoc_in _ _ _ ND Hv).
    + intros Hn Hd. now rewrite (assoc_out _ _ Hd), (assoc_out _ _ Hn).
Qed.
(** Whatever happens to be unpicklable, the original text reaches the caller, provided that
    what was pickled can be rebuilt and wrapped. *)
Lemma hop_mentions t h e : mentions t (str e) ->
  loads (klass_of e) = true -> bare_new (klass_of e) = true -> is_cancelled (klass_of e) = false ->
  let x := one_hop h e in
  mentions t (str x) /\ loads (klass_of x) = true /\ bare_new (klass_of x) = true /\ is_cancelled (klass_of x) = false.
Proof.
  intros Ht Hl Hb Hc. destruct h as [a p|a p]; cbn [one_hop].
  - unfold as_instanceof_cause, error_processor. cbn. destruct (is_wrapped e); [auto|]. rewrite Hc. unfold wrap. rewrite Hb.
    cbn. split; [now constructor|auto].
  - assert (Hbad : let x := as_instanceof_cause (mkE a p false (mk SendMessageFailed (NotSent (str e)))) in
      mentions t (str x) /\ loads (klass_of x) = true /\ bare_new (klass_of x) = true /\ is_cancelled (klass_of x) = false).
    { cbn. split; [now repeat constructor|auto]. }
    unfold serial, serial_error, error_processor. cbn [m_error m_as_cause m_addr m_pid].
    destruct (dumping_of (klass_of e)) eqn:Ed; cbn [negb andb].
    + rewrite andb_false_r. unfold deserial, received. cbn [m_error]. rewrite Hl. unfold as_instanceof_cause. cbn.
      destruct (is_wrapped e); [auto|]. rewrite Hc. unfold wrap. rewrite Hb. cbn. split; [now constructor|auto].
    + destruct (is_exception (klass_of e)); [|exact Hbad]. destruct (is_wrapped e); cbn [andb]; [exact Hbad|].
      cbn. split; [now repeat constructor|auto].
    + destruct (is_exception (klass_of e)); [|exact Hbad]. destruct (is_wrapped e); cbn [andb]; [exact Hbad|].
      cbn. split; [now repeat constructor|auto].
    + exact Hbad.
Qed.
Theorem C58_text_arrives_partial hops e :
  loads (klass_of e) = true -> bare_new (klass_of e) = true -> is_cancelled (klass_of e) = false ->
  mentions (str e) (str (travel hops e)).
Proof.
  intros Hl Hb Hc. unfold travel.
  enough (H : forall x, mentions (str e) (str x) -> loads (klass_of x) = true -> bare_new (klass_of x) = true ->
    is_cancelled (klass_of x) = false -> mentions (str e) (str (fold_left (fun e h => one_hop h e) hops x)))
    by (apply H; auto; constructor).
  clear Hl Hb Hc. induction hops as [|h hops IH]; intros x Hx Hl Hb Hc; [exact Hx|]. cbn.
  destruct (hop_mentions (str e) h x Hx Hl Hb Hc) as (A & B & C & D). now apply IH.
Qed.
(** A cancellation arrives as a cancellation. *)
Theorem C58_cancelled hops e :
  is_cancelled (klass_of e) = true -> raised_by_user e -> dumping_of (klass_of e) = Dumps -> loads (klass_of e) = true ->
  is_cancelled (klass_of (travel hops e)) = true.
Proof.
  intros Hc Hu Hd Hl. unfold travel.
  enough (H : forall x, is_cancelled (klass_of x) = true -> is_wrapped x = false -> dumping_of (klass_of x) = Dumps ->
    loads (klass_of x) = true -> is_cancelled (klass_of (fold_left (fun e h => one_hop h e) hops x)) = true) by now apply H.
  clear e Hc Hu Hd Hl. induction hops as [|h hops IH]; intros x Hc Hu Hd Hl; [exact Hc|]. cbn.
  assert (E : exists a p, one_hop h x = mk CancelledError (Label a p Nothing)).
  { destruct h as [a p|a p]; exists a, p; cbn [one_hop].
    - unfold as_instanceof_cause, error_processor. cbn. now rewrite Hu, Hc.
    - unfold serial, serial_error, error_processor. cbn. rewrite Hd, Hu. cbn. unfold deserial. cbn. rewrite Hl. cbn.
      unfold as_instanceof_cause. cbn. now rewrite Hc. }
  destruct E as (a & p & ->). now apply IH.
Qed.

(** ** What goes wrong *)
Module Demo.
  Definition ValueError : klass := plain_class 1 true.
  Definition boom : exn := Plain ValueError (Words 7) 9 [(5, 55)] [].
  Example arrives : let x := travel [Socket 10 20; InProcess 11 21; Socket 12 22] boom in
    klass_of x = ValueError /\ str x = Label 10 20 (Words 7) /\ getattr x 5 = Some (Some 55) /\ getattr x a_args = Some (Some 9).
  Proof. repeat split. Qed.
  Example boom_portable : portable (klass_of boom) /\ transparent boom 5.
  Proof. repeat split; try discriminate. now right. Qed.
  (** An exception that holds a lock *)
  Definition holds_lock : exn := Plain (mkK 2 true false RaisesTypeError true true [] []) (Words 8) 0 [] [].
  Example not_pickled : str (travel [Socket 10 20; Socket 12 22] holds_lock) = Label 10 20 (NoPickle (Words 8)).
  Proof. reflexivity. Qed.
  (** ... first caught and passed on within one process, then sent *)
  Example not_sent : str (travel [InProcess 10 20; Socket 12 22] holds_lock) = Label 12 22 (NotSent (Label 10 20 (Words 8))).
  Proof. reflexivity. Qed.
  (** [class E(Exception): def __init__(self, a, b): super().__init__(a)] *)
  Definition two_args : exn := Plain (mkK 3 true false Dumps false true [] []) (Words 8) 0 [] [].
  (** [FileNotFoundError(2, ...)]; attribute 6 is [errno] *)
  Definition no_file : exn := Plain (mkK 4 true false Dumps true true [6] []) (Words 8) 0 [] [(6, 2)].
  (** [class E(Exception): status = 500], raised with [self.status = 404] *)
  Definition status : exn := Plain (mkK 5 true false Dumps true true [] [(7, 500)]) (Words 8) 0 [(7, 404)] [].
  (** [self.address = 77] *)
  Definition with_address : exn := Plain (plain_class 6 true) (Words 8) 0 [(a_address, 77)] [].
  (** a class whose [__new__] wants an argument *)
  Definition picky : exn := Plain (mkK 7 true false Dumps true false [] []) (Words 8) 0 [] [].
  Example cancelled : klass_of (travel [Socket 1 2; Socket 3 4] (mk CancelledError (Words 5))) = CancelledError.
  Proof. reflexivity. Qed.
End Demo.

(** An exception whose constructor takes other arguments than [Exception]'s: the caller gets a
    TypeError about the constructor, and nothing of the original. *)
Theorem C58_lost_error_refuted : ~ (forall h e, raised_by_user e -> dumping_of (klass_of e) = Dumps ->
  is_cancelled (klass_of e) = false -> klass_of (one_hop h e) = klass_of e \/ mentions (str e) (str (one_hop h e))).
Proof.
  intros H. destruct (H (Socket 1 2) Demo.two_args eq_refl eq_refl eq_refl) as [E|E]; [discriminate E|].
  inversion E.
Qed.
(** A class whose [__new__] wants arguments: the caller gets a TypeError, even within one process. *)
Theorem C58_picky_class_refuted : ~ (forall h e, raised_by_user e -> dumping_of (klass_of e) = Dumps -> loads (klass_of e) = true ->
  is_cancelled (klass_of e) = false -> klass_of (one_hop h e) = klass_of e).
Proof. intros H. discriminate (H (InProcess 1 2) Demo.picky eq_refl eq_refl eq_refl eq_refl). Qed.
(** [e.errno] is None at the caller. *)
Theorem C58_native_fields_refuted : ~ (forall h e n, raised_by_user e -> portable (klass_of e) ->
  n <> a_address -> n <> a_pid -> getattr e n <> None -> getattr (one_hop h e) n = getattr e n).
Proof.
  intros H. assert (Hp : portable (klass_of Demo.no_file)) by (repeat split).
  discriminate (H (Socket 1 2) Demo.no_file 6 eq_refl Hp); discriminate.
Qed.
(** An attribute that overrides a default of the class has the default at the caller. *)
Theorem C58_class_default_refuted : ~ (forall h e n, raised_by_user e -> portable (klass_of e) -> natives (klass_of e) = [] ->
  n <> a_address -> n <> a_pid -> getattr e n <> None -> getattr (one_hop h e) n = getattr e n).
Proof.
  intros H. assert (Hp : portable (klass_of Demo.status)) by (repeat split).
  discriminate (H (Socket 1 2) Demo.status 7 eq_refl Hp eq_refl); discriminate.
Qed.
(** An attribute called [address] or [pid] is replaced by the pool's. *)
Theorem C58_address_refuted : ~ (forall h e n, raised_by_user e -> portable (klass_of e) -> natives (klass_of e) = [] ->
  defaults (klass_of e) = [] -> getattr e n <> None -> getattr (one_hop h e) n = getattr e n).
Proof.
  intros H. assert (Hp : portable (klass_of Demo.with_address)) by (repeat split).
  discriminate (H (Socket 1 2) Demo.with_address a_address eq_refl Hp eq_refl eq_refl); discriminate.
Qed.
Theorem C58_faithful_refuted : ~ claim.
Proof.
  intros H. destruct (H (Socket 1 2) [] Demo.two_args eq_refl eq_refl) as (E & _). discriminate E.
Qed.

Print Assumptions C58_arrives_partial.
Print Assumptions C58_values_arrive_partial.
Print Assumptions C58_text_arrives_partial.
Print Assumptions C58_cancelled.
Print Assumptions C58_lost_error_refuted.
Print Assumptions C58_picky_class_refuted.
Print Assumptions C58_native_fields_refuted.
Print Assumptions C58_class_default_refuted.
Print Assumptions C58_address_refuted.
Print Assumptions C58_faithful_refuted.
