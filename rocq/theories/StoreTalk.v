(** * StoreTalk: which messages the rendezvous store sends to whom, proofs *)
From Coq Require Import List Bool Arith ZArith Ascii String Lia.
From Verif Require Import Dict PyStr SizeModel StoreModel StoreProps StoreWait StoreWaitProps.
Import ListNotations.
Open Scope list_scope.
Open Scope nat_scope.

Definition watching (s : st) (c : sock) : Prop := exists k, In c (watchers s k).

(** Messages are: to stop waiting; of a watched key, to a watcher; to the requester. *)
Definition fits (c : sock) (w : sock -> Prop) (cm : sock * msg) : Prop :=
  match snd cm with
  | MStop => True
  | MWatch _ _ _ _ => w (fst cm)
  | _ => fst cm = c
  end.

(** [X] sends only fitting messages, and only [c] may become a watcher. *)
Definition Class (c : sock) (X : M) : Prop := forall s o s' o' st,
  X (s, o) = ((s', o'), st) ->
  watched s' = watched s /\
  exists new, o' = new ++ o /\ Forall (fits c (watching s)) new.

Lemma class_seq c X Y : Class c X -> Class c Y -> Class c (X ;; Y).
Proof.
  intros CX CY s o s' o' st E. apply seq_run in E. destruct E as [(s1 & o1 & E1 & E2)|(_ & E1)]; [|eauto].
  destruct (CX _ _ _ _ _ E1) as (W1 & n1 & -> & F1). destruct (CY _ _ _ _ _ E2) as (W2 & n2 & -> & F2).
  split; [congruence|]. exists (n2 ++ n1). rewrite app_assoc. split; auto. apply Forall_app. split; auto.
  eapply Forall_impl; [|exact F2]. intros [x m]. unfold fits, watching, watchers. rewrite W1. auto.
Qed.
Lemma class_with c f : (forall s, Class c (f s)) -> Class c (with_st f).
Proof. intros H s o s' o' st E. unfold with_st in E. eapply H; eauto. Qed.
Lemma class_ret c : Class c ret.
Proof. intros s o s' o' st E. inversion E; subst. split; auto. exists []. auto. Qed.
Lemma class_refuse c : Class c refuse.
Proof. intros s o s' o' st E. inversion E; subst. split; auto. exists []. auto. Qed.
Lemma class_upd c f : (forall s, watched (f s) = watched s) -> Class c (upd f).
Proof. intros H s o s' o' st E. apply upd_run in E. destruct E as (-> & -> & ->). split; auto. exists []. auto. Qed.
Lemma class_send dead c c' m : (forall s, fits c (watching s) (c', m)) -> Class c (send dead c' m).
Proof.
  intros H s o s' o' st E. apply send_run in E. destruct E as (-> & [(_ & ->)|(_ & ->)]); split; auto.
  - exists [(c', m)]. auto.
  - exists []. auto.
Qed.
Lemma class_wakeup c dead k : Class c (wakeup dead k).
Proof.
  apply class_with. intros s. destruct (find (waiting s) k) as [l|]; [|apply class_ret].
  apply class_seq; [|apply class_upd; reflexivity]. clear s. induction l as [|x l IH]; [apply class_ret|].
  cbn [wake_loop]. apply class_with. intros s. apply class_seq; [apply class_upd; reflexivity|]. apply class_seq; auto.
  destruct (decr (get_awaited s x) =? 0)%Z; [apply class_send; cbn; auto|apply class_ret].
Qed.

Lemma class_loop c m l s0 : match m with MWatch _ _ _ _ => True | _ => False end -> (forall x, In x l -> watching s0 x) ->
  forall dead s o s' o' st, watched s = watched s0 -> notify_loop dead l m (s, o) = ((s', o'), st) ->
  watched s' = watched s /\ exists new, o' = new ++ o /\ Forall (fits c (watching s)) new.
Proof.
  intros HM HW dead. induction l as [|x l IH]; intros s o s' o' st W E; cbn [notify_loop] in E.
  - inversion E; subst. split; auto. exists []. auto.
  - apply seq_run in E. destruct E as [(s1 & o1 & E1 & E2)|(_ & E1)].
    + apply send_run in E1. destruct E1 as (-> & [(_ & ->)|(X & _)]); [|discriminate].
      assert (HW' : forall y, In y l -> watching s0 y) by (intros; apply HW; cbn; auto).
      destruct (IH HW' _ _ _ _ _ W E2) as (W2 & new & -> & F). split; auto. exists (new ++ [(x, m)]). rewrite <- app_assoc. split; auto.
      apply Forall_app. split; auto. constructor; auto. unfold fits. cbn [fst snd]. destruct m; try destruct HM.
      specialize (HW x (or_introl eq_refl)). unfold watching, watchers in *. rewrite W. exact HW.
    + apply send_run in E1. destruct E1 as (-> & [(_ & ->)|(X & ->)]); split; auto.
      * exists [(x, m)]. split; auto. constructor; auto. unfold fits. cbn [fst snd]. destruct m; try destruct HM.
        specialize (HW x (or_introl eq_refl)). unfold watching, watchers in *. rewrite W. exact HW.
      * exists []. auto.
Qed.

Lemma class_notify c dead k t o n : Class c (notify dead k t o n).
Proof.
  intros s o1 s' o' st E. unfold notify, with_st in E. cbn [fst] in E.
  apply (class_loop c (MWatch t k o n) (watchers s k) s I) in E; auto. intros x Hx. exists k. exact Hx.
Qed.

Ltac cls := repeat first
  [ apply class_notify | apply class_wakeup | apply class_seq | (apply class_with; intros) | apply class_ret | apply class_refuse
  | (apply class_upd; reflexivity) | (apply class_send; cbn; solve [auto]) ].

Lemma class_enlist c ks : forall n s, watched (fst (enlist c ks n s)) = watched s.
Proof. induction ks as [|k ks IH]; intros n s; auto. cbn [enlist]. destruct (find (store s) k); rewrite IH; auto. Qed.

Lemma class_do_set c dead k v : Class c (do_set dead k v).
Proof. unfold do_set. cls. destruct (find (store s) k); cls. Qed.
Lemma class_multi_set c dead kvs : Class c (multi_set dead kvs).
Proof. induction kvs as [|[k v] kvs IH]; cbn [multi_set]; [apply class_ret|apply class_seq; auto using class_do_set]. Qed.
Lemma class_get c dead k : Class c (get dead c k).
Proof. unfold get. cls. destruct (find (store s) k); cls. Qed.
Lemma class_multi_get c dead ks : Class c (multi_get dead c ks).
Proof. induction ks; cbn [multi_get]; [apply class_ret|apply class_seq; auto using class_get]. Qed.

Lemma class_handle dead c r : (forall k, r <> WatchKey k) -> Class c (handle dead c r).
Proof.
  intros NW. destruct r; cbn [handle]; try (elim (NW k); reflexivity).
  - apply class_do_set.
  - unfold compare_set. apply class_with. intros s. destruct (find (store s) k) as [x|].
    + destruct (text_eqb x expected); cls.
    + destruct expected; cls.
  - apply class_get.
  - unfold add. apply class_with. intros s. destruct (find (store s) k) as [x|]; [destruct (stoll x)|]; cls.
  - cls.
  - unfold wait. apply class_with. intros s. destruct (check_keys s ks); cls. apply class_upd. intros s0.
    assert (H := class_enlist c ks 0%Z s0). destruct (enlist c ks 0 s0). exact H.
  - cls.
  - unfold delete. apply class_with. intros s. destruct (find (store s) k); cls.
  - unfold append. apply class_with. intros s. destruct (find (store s) k); cls.
  - apply class_multi_get.
  - apply class_multi_set.
Qed.

Lemma class_watch dead c k s o s' o' st : watch dead c k (s, o) = ((s', o'), st) ->
  watched s' = put (watched s) k (watchers s k ++ [c]) /\
  exists new, o' = new ++ o /\ Forall (fun cm => fst cm = c /\ snd cm = MRegistered) new.
Proof.
  intros E. unfold watch, with_st in E. cbn [fst] in E. apply seq_run in E. destruct E as [(s1 & o1 & E1 & E2)|(_ & E1)].
  - apply upd_run in E1. destruct E1 as (-> & -> & _). apply send_run in E2. destruct E2 as (-> & [(_ & ->)|(_ & ->)]); split; auto.
    + exists [(c, MRegistered)]. auto.
    + exists []. auto.
  - apply upd_run in E1. destruct E1 as (-> & -> & _). split; auto. exists []. auto.
Qed.

(** Only connections that asked to watch are in the table of watchers. *)
Definition asked_to_watch (c : sock) (h : list entry) : Prop :=
  exists k dead st out, In (mkEntry (Request c (WatchKey k) dead) st out) h.

Lemma watching_asked s h c : reach s h -> watching s c -> asked_to_watch c h.
Proof.
  induction 1 as [|s h e s' x R IH P ST].
  - intros (k & []).
  - intros W.
    assert (EX : watching s c -> asked_to_watch c (x :: h)).
    { intros W0. destruct (IH W0) as (k & d & st & out & I). exists k, d, st, out. right. exact I. }
    destruct e as [c0|c0|c0 r dead]; cbn [step] in ST; try (inversion ST; subst; apply EX; exact W).
    destruct (handle dead c0 r (s, [])) as [[s1 o1] st] eqn:E.
    assert (W1 : watching s1 c) by (destruct st; inversion ST; subst; exact W).
    assert (EVX : ev x = Request c0 r dead) by (destruct st; inversion ST; subst; reflexivity).
    assert (D : (exists k, r = WatchKey k) \/ forall k, r <> WatchKey k) by (destruct r; eauto; right; discriminate).
    destruct D as [(k & ->)|NW].
    + cbn [handle] in E. apply class_watch in E. destruct E as (E & _). destruct W1 as (k' & W1). unfold watchers in W1. rewrite E, find_put in W1.
      destruct (Nat.eqb_spec k k') as [EK|NK]; [subst k'|].
      * apply in_app_or in W1. destruct W1 as [W1|[<-|[]]]; [apply EX; exists k; exact W1|].
        exists k, dead, (res x), (sent x). left. destruct x; cbn in *. subst. reflexivity.
      * apply EX. exists k'. exact W1.
    + apply class_handle in E; auto. destruct E as (E & _). apply EX. destruct W1 as (k & W1). exists k. unfold watchers in *. now rewrite <- E.
Qed.

(** Messages to [c] in one event. *)
Definition to (c : sock) (out : list (sock * msg)) : list msg := map snd (filter (fun cm => fst cm =? c) out).

Lemma to_app c a b : to c (a ++ b) = to c a ++ to c b.
Proof. unfold to. now rewrite filter_app, map_app. Qed.

(** The messages to [c], which does not watch: replies and messages to stop waiting. *)
Lemma to_own c r out w : ~ w c -> Forall (fits c w) out -> stops c out = 0 -> keeps_replies r = true -> to c out = direct c r out.
Proof.
  intros NW F S K. unfold to, direct. f_equal. induction F as [|[x m] l H F IH]; auto. rewrite stops_cons in S.
  cbn [filter fst snd]. unfold fits in H. cbn [fst snd] in H. destruct (Nat.eqb_spec x c) as [->|]; cbn [andb]; [|apply IH; lia].
  assert (IR : is_reply r m = true).
  { destruct m; auto; try (elim NW; assumption). unfold is_stop in S. cbn [fst snd] in S. rewrite Nat.eqb_refl in S. cbn in S. discriminate S. }
  rewrite IR. f_equal. apply IH. lia.
Qed.

Lemma to_other c c0 out w : ~ w c -> c0 <> c -> Forall (fits c0 w) out -> to c out = repeat MStop (stops c out).
Proof.
  intros NW N F. unfold to. induction F as [|[x m] l H F IH]; auto. rewrite stops_cons.
  cbn [filter fst snd]. unfold fits in H. cbn [fst snd] in H. unfold is_stop. cbn [fst snd].
  destruct (Nat.eqb_spec x c) as [->|]; cbn [andb b2n Nat.add map]; auto.
  destruct m; cbn [b2n Nat.add]; try congruence; try contradiction. cbn [repeat map snd]. now rewrite IH.
Qed.
