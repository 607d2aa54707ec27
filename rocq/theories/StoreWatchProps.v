(** * C49: watchers of a key of the rendezvous store

    How to read.  A client may ask to be notified of the changes of a key.
    [changes m r] are the changes request [r] makes to a map with contents [m];
    [registrations c k h] counts how often [c] has asked for key [k].  The
    theorem: each completed request sends each watcher exactly the
    notifications of its changes, once per registration, in order, with the old
    and the new value.  (For an [append] to an existing key the notification
    carries the appended part only.)  Since a registration outlives the
    connection that made it, updates fail and strangers are notified after a
    watcher has left: refuted below. *)
From Coq Require Import String Ascii List Bool Arith ZArith Lia.
From Verif Require Import Dict PyStr SizeModel StoreModel StoreProps StoreWait StoreWaitProps StoreTalk.
Import ListNotations.
Open Scope list_scope.
Open Scope nat_scope.

(** ** Specification *)
Definition note := (change * key * val * val)%type.
Definition note_key (n : note) : key := snd (fst (fst n)).

Definition written (m : contents) (k : key) (v : val) : note :=
  match m k with
  | None => (KeyCreated, k, [], v)
  | Some o => (KeyUpdated, k, o, v)
  end.
Fixpoint written_all (m : contents) (kvs : list (key * val)) : list note :=
  match kvs with
  | [] => []
  | (k, v) :: kvs => written m k v :: written_all (assign m k (Some v)) kvs
  end.
Definition changes (m : contents) (r : request) : list note :=
  match r with
  | Set_ k v => [written m k v]
  | CompareSet k e d =>
      match m k with
      | None => match e with [] => [written m k d] | _ => [] end
      | Some x => if text_eqb x e then [written m k d] else []
      end
  | Add k z => match total m k z with Some t => [written m k (to_string t)] | None => [] end
  | DeleteKey k => match m k with Some o => [(KeyDeleted, k, o, [])] | None => [] end
  | Append k v => match m k with Some _ => [(KeyAppended, k, [], v)] | None => [(KeyCreated, k, [], v)] end
  | MultiSet kvs => written_all m kvs
  | _ => []
  end.

(** Notifications sent to [c]. *)
Definition notes_to (c : sock) (out : list (sock * msg)) : list note :=
  flat_map (fun cm => match snd cm with
                      | MWatch t k o n => if fst cm =? c then [(t, k, o, n)] else []
                      | _ => []
                      end) out.

Definition registers (c : sock) (k : key) (e : entry) : bool :=
  match ev e with Request c' (WatchKey k') _ => (c' =? c) && (k' =? k) | _ => false end.
Definition registrations (c : sock) (k : key) (h : list entry) : nat := List.length (filter (registers c k) h).

(** ** Proofs *)
Lemma notes_app c a b : notes_to c (a ++ b) = notes_to c a ++ notes_to c b.
Proof. unfold notes_to. apply flat_map_app. Qed.

(** [X], when completed, sends the notifications [f c] to [c]; it does not change the table. *)
Definition Tells (X : M) (s0 : st) (f : sock -> list note) : Prop := forall s o s' o',
  watched s = watched s0 -> X (s, o) = ((s', o'), Done) ->
  watched s' = watched s0 /\ exists new, o' = new ++ o /\ forall c, notes_to c (rev new) = f c.

Definition quiet (c : sock) : list note := [].

Lemma tells_seq X Y s0 f g h : Tells X s0 f -> Tells Y s0 g -> (forall c, h c = f c ++ g c) -> Tells (X ;; Y) s0 h.
Proof.
  intros TX TY HE s o s' o' W E. apply seq_run in E. destruct E as [(s1 & o1 & E1 & E2)|(N & _)]; [|congruence].
  destruct (TX _ _ _ _ W E1) as (W1 & n1 & -> & F1). destruct (TY _ _ _ _ W1 E2) as (W2 & n2 & -> & F2).
  split; auto. exists (n2 ++ n1). rewrite app_assoc. split; auto. intros c. rewrite rev_app_distr, notes_app, F1, F2. now rewrite HE.
Qed.
Lemma tells_seq_q X Y s0 f : Tells X s0 quiet -> Tells Y s0 f -> Tells (X ;; Y) s0 f.
Proof. intros A B. eapply tells_seq; eauto. Qed.
Lemma tells_q_seq X Y s0 f : Tells X s0 f -> Tells Y s0 quiet -> Tells (X ;; Y) s0 f.
Proof. intros A B. eapply tells_seq; eauto. intros c. now rewrite app_nil_r. Qed.
Lemma tells_ret s0 : Tells ret s0 quiet.
Proof. intros s o s' o' W E. inversion E; subst. split; auto. exists []. auto. Qed.
Lemma tells_upd s0 f : (forall s, watched (f s) = watched s) -> Tells (upd f) s0 quiet.
Proof. intros H s o s' o' W E. apply upd_run in E. destruct E as (-> & -> & _). split; [now rewrite H|]. exists []. auto. Qed.
Lemma tells_send dead c m s0 : match m with MWatch _ _ _ _ => False | _ => True end -> Tells (send dead c m) s0 quiet.
Proof.
  intros HM s o s' o' W E. apply send_run in E. destruct E as (-> & [(_ & ->)|(X & _)]); [|discriminate].
  split; auto. exists [(c, m)]. split; auto. intros c'. cbn. destruct m; auto. destruct HM.
Qed.
Lemma tells_with f s0 g : (forall s, watched s = watched s0 -> Tells (f s) s0 g) -> Tells (with_st f) s0 g.
Proof. intros H s o s' o' W E. unfold with_st in E. cbn [fst] in E. eapply H; eauto. Qed.
Lemma tells_wakeup dead k s0 : Tells (wakeup dead k) s0 quiet.
Proof.
  apply tells_with. intros s _. destruct (find (waiting s) k) as [l|]; [|apply tells_ret].
  apply tells_seq_q; [|apply tells_upd; reflexivity]. clear s. induction l as [|x l IH]; [apply tells_ret|].
  cbn [wake_loop]. apply tells_with. intros s _. apply tells_seq_q; [apply tells_upd; reflexivity|].
  apply tells_seq_q; auto. destruct (decr (get_awaited s x) =? 0)%Z; [apply tells_send; exact I|apply tells_ret].
Qed.
Definition fan (s0 : st) (n : note) (c : sock) : list note := repeat n (cnt c (watchers s0 (note_key n))).
Lemma tells_notify dead k t o n s0 : Tells (notify dead k t o n) s0 (fan s0 (t, k, o, n)).
Proof.
  unfold notify. apply tells_with. intros s W. unfold fan. cbn [note_key fst snd].
  assert (WE : watchers s k = watchers s0 k) by (unfold watchers; now rewrite W). rewrite WE. clear s W WE.
  induction (watchers s0 k) as [|x l IH]; [apply tells_ret|]. cbn [notify_loop].
  apply (tells_seq _ _ s0 (fun c => if x =? c then [(t, k, o, n)] else []) (fun c => repeat (t, k, o, n) (cnt c l))); auto.
  - intros s o1 s' o' W E. apply send_run in E. destruct E as (-> & [(_ & ->)|(X & _)]); [|discriminate].
    split; auto. eexists [_]. split; [reflexivity|]. intros c. cbn. now rewrite app_nil_r.
  - intros c. rewrite cnt_cons, (Nat.eqb_sym c x). destruct (x =? c); reflexivity.
Qed.
Lemma tells_refuse s0 f : Tells refuse s0 f.
Proof. intros s o s' o' W E. discriminate E. Qed.

Definition fans (s0 : st) (ns : list note) (c : sock) : list note := flat_map (fun n => fan s0 n c) ns.
Lemma tells_ext X s0 f g : (forall c, f c = g c) -> Tells X s0 f -> Tells X s0 g.
Proof.
  intros H T s o s' o' W E. destruct (T _ _ _ _ W E) as (W' & new & O & F). split; auto. exists new. split; auto.
  intros c. now rewrite F.
Qed.
Lemma fans_one s0 n c : fan s0 n c = fans s0 [n] c.
Proof. unfold fans. cbn [flat_map]. now rewrite app_nil_r. Qed.

Ltac tl := repeat first
  [ apply tells_notify | apply tells_wakeup | apply tells_ret | apply tells_refuse
  | (apply tells_upd; reflexivity) | (apply tells_send; exact I)
  | (apply tells_seq_q; [solve [tl]|]) | (apply tells_q_seq; [|solve [tl]]) ].

Lemma tells_do_set dead k v s0 m s o s' o' : watched s = watched s0 -> (forall k, find (store s) k = m k) ->
  do_set dead k v (s, o) = ((s', o'), Done) ->
  watched s' = watched s0 /\ exists new, o' = new ++ o /\ forall c, notes_to c (rev new) = fans s0 [written m k v] c.
Proof.
  intros W EQ E. unfold do_set, with_st in E. cbn [fst] in E. rewrite EQ in E.
  set (Y := match m k with Some o0 => notify dead k KeyUpdated o0 v | None => notify dead k KeyCreated [] v end) in E.
  assert (TY : Tells Y s0 (fans s0 [written m k v])).
  { unfold Y, written. destruct (m k); (eapply tells_ext; [intros; apply fans_one|apply tells_notify]). }
  assert (T : Tells (upd (set_store (fun d => put d k v)) ;; wakeup dead k ;; Y) s0 (fans s0 [written m k v])).
  { apply tells_seq_q; [apply tells_upd; reflexivity|]. apply tells_seq_q; [apply tells_wakeup|exact TY]. }
  exact (T _ _ _ _ W E).
Qed.

Lemma do_set_store dead k v m s o s' o' st : (forall k, find (store s) k = m k) ->
  do_set dead k v (s, o) = ((s', o'), st) -> forall k', find (store s') k' = assign m k (Some v) k'.
Proof.
  intros EQ E. unfold do_set, with_st in E. cbn [fst] in E. apply seq_run in E.
  destruct E as [(s1 & o1 & E1 & E2)|(N & E)]; [|apply upd_run in E; destruct E as (_ & _ & ->); congruence].
  apply upd_run in E1. destruct E1 as (-> & -> & _). apply calm_store_same in E2.
  - rewrite E2. cbn [store set_store]. now apply assign_ok.
  - apply noise_seq; [apply noise_wakeup|]. destruct (find (store s) k); apply noise_notify.
Qed.

Lemma tells_multi_set dead kvs s0 : forall m s o s' o', watched s = watched s0 -> (forall k, find (store s) k = m k) ->
  multi_set dead kvs (s, o) = ((s', o'), Done) ->
  watched s' = watched s0 /\ exists new, o' = new ++ o /\ forall c, notes_to c (rev new) = fans s0 (written_all m kvs) c.
Proof.
  induction kvs as [|[k v] kvs IH]; intros m s o s' o' W EQ E; cbn [multi_set] in E.
  - inversion E; subst. split; auto. exists []. auto.
  - apply seq_run in E. destruct E as [(s1 & o1 & E1 & E2)|(N & _)]; [|congruence].
    destruct (tells_do_set dead k v s0 m _ _ _ _ W EQ E1) as (W1 & n1 & -> & F1).
    destruct (IH (assign m k (Some v)) _ _ _ _ W1 (do_set_store _ _ _ _ _ _ _ _ _ EQ E1) E2) as (W2 & n2 & -> & F2).
    split; auto. exists (n2 ++ n1). rewrite app_assoc. split; auto. intros c.
    rewrite rev_app_distr, notes_app, F1, F2. cbn [written_all]. unfold fans. cbn [flat_map]. now rewrite app_nil_r.
Qed.

Lemma tells_multi_get dead c ks s0 : Tells (multi_get dead c ks) s0 quiet.
Proof.
  induction ks as [|k ks IH]; cbn [multi_get]; [apply tells_ret|]. apply tells_seq_q; auto.
  unfold get. apply tells_with. intros s _. destruct (find (store s) k); [apply tells_send; exact I|apply tells_refuse].
Qed.

Lemma tells_handle dead c r m s o s' o' : (forall k, r <> WatchKey k) -> (forall k, find (store s) k = m k) ->
  handle dead c r (s, o) = ((s', o'), Done) ->
  exists new, o' = new ++ o /\ forall c, notes_to c (rev new) = fans s (changes m r) c.
Proof.
  intros NW EQ E. enough (X : watched s' = watched s /\ exists new, o' = new ++ o /\ forall c, notes_to c (rev new) = fans s (changes m r) c) by apply X.
  destruct r; cbn [handle changes] in *; try (elim (NW k); reflexivity).
  - exact (tells_do_set dead k v s m _ _ _ _ eq_refl EQ E).
  - unfold compare_set, with_st in E. cbn [fst] in E. rewrite EQ in E. unfold written. destruct (m k) as [x|] eqn:MK.
    + assert (TE : text_eqb x expected = true -> x = expected) by (destruct (text_eqb_spec x expected); auto; discriminate).
      destruct (text_eqb x expected).
      * rewrite <- (TE eq_refl) in E. assert (T : Tells (upd (set_store (fun d => put d k desired)) ;; notify dead k KeyUpdated x desired ;; send dead c (MBytes desired)) s
             (fans s [(KeyUpdated, k, x, desired)])).
        { apply tells_seq_q; [apply tells_upd; reflexivity|]. apply tells_q_seq; [|apply tells_send; exact I].
          eapply tells_ext; [intros; apply fans_one|apply tells_notify]. }
        exact (T _ _ _ _ eq_refl E).
      * exact (tells_send dead c (MBytes x) s I _ _ _ _ eq_refl E).
    + destruct expected as [|a e].
      * assert (T : Tells (upd (set_store (fun d => put d k desired)) ;; notify dead k KeyCreated [] desired ;; send dead c (MBytes desired)) s
             (fans s [(KeyCreated, k, [], desired)])).
        { apply tells_seq_q; [apply tells_upd; reflexivity|]. apply tells_q_seq; [|apply tells_send; exact I].
          eapply tells_ext; [intros; apply fans_one|apply tells_notify]. }
        exact (T _ _ _ _ eq_refl E).
      * exact (tells_send dead c (MBytes (a :: e)) s I _ _ _ _ eq_refl E).
  - assert (T : Tells (get dead c k) s quiet).
    { unfold get. apply tells_with. intros s1 _. destruct (find (store s1) k); [apply tells_send; exact I|apply tells_refuse]. }
    exact (T _ _ _ _ eq_refl E).
  - unfold add, with_st in E. cbn [fst] in E. rewrite EQ in E. unfold written, total. destruct (m k) as [x|] eqn:MK.
    + destruct (stoll x) as [y|]; [|discriminate E].
      assert (T : Tells (upd (set_store (fun d => put d k (to_string (wrap64 (z + y))))) ;; send dead c (MValue (wrap64 (z + y))) ;; wakeup dead k ;; notify dead k KeyUpdated x (to_string (wrap64 (z + y)))) s
             (fans s [(KeyUpdated, k, x, to_string (wrap64 (z + y)))])).
      { apply tells_seq_q; [apply tells_upd; reflexivity|]. apply tells_seq_q; [apply tells_send; exact I|]. apply tells_seq_q; [apply tells_wakeup|].
        eapply tells_ext; [intros; apply fans_one|apply tells_notify]. }
      exact (T _ _ _ _ eq_refl E).
    + assert (T : Tells (upd (set_store (fun d => put d k (to_string z))) ;; send dead c (MValue z) ;; wakeup dead k ;; notify dead k KeyCreated [] (to_string z)) s
             (fans s [(KeyCreated, k, [], to_string z)])).
      { apply tells_seq_q; [apply tells_upd; reflexivity|]. apply tells_seq_q; [apply tells_send; exact I|]. apply tells_seq_q; [apply tells_wakeup|].
        eapply tells_ext; [intros; apply fans_one|apply tells_notify]. }
      exact (T _ _ _ _ eq_refl E).
  - refine (tells_with _ s quiet _ _ _ _ _ eq_refl E). intros; apply tells_send; exact I.
  - assert (T : Tells (wait dead c ks) s quiet).
    { unfold wait. apply tells_with. intros s1 _. destruct (check_keys s1 ks); [apply tells_send; exact I|]. apply tells_upd.
      intros s2. assert (H := class_enlist c ks 0%Z s2). destruct (enlist c ks 0 s2). exact H. }
    exact (T _ _ _ _ eq_refl E).
  - refine (tells_with _ s quiet _ _ _ _ _ eq_refl E). intros; apply tells_send; exact I.
  - unfold delete, with_st in E. cbn [fst] in E. rewrite EQ in E. destruct (m k) as [x|].
    + assert (T : Tells (notify dead k KeyDeleted x [] ;; upd (set_store (fun d => erase d k)) ;; send dead c (MValue 1)) s
             (fans s [(KeyDeleted, k, x, [])])).
      { apply tells_q_seq; [eapply tells_ext; [intros; apply fans_one|apply tells_notify]|].
        apply tells_seq_q; [apply tells_upd; reflexivity|apply tells_send; exact I]. }
      exact (T _ _ _ _ eq_refl E).
    + exact (tells_send dead c (MValue 0) s I _ _ _ _ eq_refl E).
  - unfold append, with_st in E. cbn [fst] in E. rewrite EQ in E. destruct (m k) as [x|].
    + assert (T : Tells (upd (set_store (fun d => put d k (x ++ v))) ;; wakeup dead k ;; notify dead k KeyAppended [] v) s
             (fans s [(KeyAppended, k, [], v)])).
      { apply tells_seq_q; [apply tells_upd; reflexivity|]. apply tells_seq_q; [apply tells_wakeup|].
        eapply tells_ext; [intros; apply fans_one|apply tells_notify]. }
      exact (T _ _ _ _ eq_refl E).
    + assert (T : Tells (upd (set_store (fun d => put d k v)) ;; wakeup dead k ;; notify dead k KeyCreated [] v) s
             (fans s [(KeyCreated, k, [], v)])).
      { apply tells_seq_q; [apply tells_upd; reflexivity|]. apply tells_seq_q; [apply tells_wakeup|].
        eapply tells_ext; [intros; apply fans_one|apply tells_notify]. }
      exact (T _ _ _ _ eq_refl E).
  - exact (tells_multi_get dead c ks s _ _ _ _ eq_refl E).
  - exact (tells_multi_set dead kvs s m _ _ _ _ eq_refl EQ E).
Qed.

Lemma registered s h : reach s h -> forall c k, cnt c (watchers s k) = registrations c k h.
Proof.
  induction 1 as [|s h e s' x R IH P ST]; intros c k; auto.
  assert (Q : forall b, registers c k x = b -> registrations c k (x :: h) = b2n b + registrations c k h).
  { intros b B. unfold registrations. cbn [filter]. rewrite B. destruct b; cbn; lia. }
  destruct e as [c0|c0|c0 r dead]; cbn [step] in ST; try (inversion ST; subst; rewrite (Q false) by reflexivity; apply IH).
  destruct (handle dead c0 r (s, [])) as [[s1 o1] st] eqn:E.
  assert (WS : watched s' = watched s1) by (destruct st; inversion ST; subst; reflexivity).
  assert (EVX : ev x = Request c0 r dead) by (destruct st; inversion ST; subst; reflexivity).
  unfold watchers. rewrite WS.
  assert (D : (exists k, r = WatchKey k) \/ forall k, r <> WatchKey k) by (destruct r; eauto; right; discriminate).
  destruct D as [(k0 & ->)|NW].
  - cbn [handle] in E. apply class_watch in E. destruct E as (E & _). rewrite E, find_put.
    rewrite (Q ((c0 =? c) && (k0 =? k))) by (unfold registers; now rewrite EVX). destruct (Nat.eqb_spec k0 k) as [->|].
    + rewrite cnt_app, IH, cnt_cons, (Nat.eqb_sym c c0). destruct (c0 =? c); cbn; lia.
    + rewrite andb_false_r. cbn. apply IH.
  - apply class_handle in E; auto. destruct E as (E & _). rewrite E. rewrite (Q false); [apply IH|].
    unfold registers. rewrite EVX. destruct r; auto. elim (NW k0). reflexivity.
Qed.

Lemma reliable_contents s h : reach s h -> reliable h -> forall k, find (store s) k = contents_of h k.
Proof.
  induction 1 as [|s h e s' x R IH P ST]; intros RL; auto. inversion RL as [|? ? NF RL']; subst. specialize (IH RL').
  destruct (explain s h R) as (ND & _).
  destruct e as [c|c|c r dead]; cbn [step] in ST; try (inversion ST; subst; exact IH).
  destruct (handle dead c r (s, [])) as [[s1 o1] st] eqn:E.
  destruct (correct_handle dead c r _ _ _ _ _ (contents_of h) ND IH E) as (ND1 & new0 & O & H).
  destruct st; inversion ST; subst; [apply H|apply H|cbn [res] in NF; congruence].
Qed.

(** ** The property *)

(** Each completed request notifies each watcher of each of its changes. *)
Theorem C49_watchers_are_notified s h c r dead out :
  reach s (mkEntry (Request c r dead) Done out :: h) -> reliable h ->
  forall w, notes_to w out = flat_map (fun n => repeat n (registrations w (note_key n) h)) (changes (contents_of h) r).
Proof.
  intros R RL w. inversion R as [|s0 h0 e s' x R0 P ST]; subst.
  assert (EQ := reliable_contents s0 h R0 RL).
  destruct e as [c0|c0|c0 r0 dead0]; cbn [step] in ST; try (inversion ST; fail).
  destruct (handle dead0 c0 r0 (s0, [])) as [[s1 o1] st] eqn:E.
  destruct st; inversion ST; subst.
  assert (D : (exists k, r = WatchKey k) \/ forall k, r <> WatchKey k) by (destruct r; eauto; right; discriminate).
  destruct D as [(k0 & ->)|NW].
  - cbn [handle] in E. apply class_watch in E. destruct E as (_ & new & -> & F). rewrite app_nil_r.
    cbn [changes flat_map]. apply Forall_rev in F. induction F as [|[y m] l [_ HM] F IH]; auto. cbn in HM. subst m. exact IH.
  - destruct (tells_handle dead c r (contents_of h) _ _ _ _ NW EQ E) as (new & -> & F). rewrite app_nil_r, F.
    unfold fans, fan. apply flat_map_ext. intros n. now rewrite (registered s0 h R0).
Qed.

(** No other event notifies anybody. *)
Theorem C49_no_other_notification s e h w : reach s (e :: h) -> res e <> SendFailed ->
  notes_to w (sent e) <> [] -> exists c r dead, ev e = Request c r dead /\ res e = Done.
Proof.
  intros R NF N. inversion R as [|s0 h0 e0 s' x R0 P ST]; subst. destruct (explain s0 h R0) as (ND & _).
  destruct e0 as [c0|c0|c0 r0 dead0]; cbn [step] in ST; try (inversion ST; subst; elim N; reflexivity).
  destruct (handle dead0 c0 r0 (s0, [])) as [[s1 o1] st] eqn:E.
  destruct st; inversion ST; subst; [|elim N|cbn in NF; congruence].
  - eexists _, _, _. split; reflexivity.
  - assert (U : unanswerable (find (store s0)) r0).
    { destruct (correct_handle dead0 c0 r0 _ _ _ _ _ (find (store s0)) ND (fun _ => eq_refl) E) as (_ & _ & _ & _ & U). exact U. }
    cbn [sent].
    assert (QM : forall ks o s' o', multi_get dead0 c0 ks (s0, o) = ((s', o'), Refused) -> exists new, o' = new ++ o /\ notes_to w (rev new) = []).
    { induction ks as [|k ks IH]; intros o s' o' E0; cbn [multi_get] in E0; [discriminate E0|].
      apply seq_run in E0. destruct E0 as [(s2 & o2 & E1 & E2)|(_ & E1)].
      - unfold get, with_st in E1. cbn [fst] in E1. destruct (find (store s0) k) as [v|]; [|discriminate E1].
        apply send_run in E1. destruct E1 as (-> & [(_ & ->)|(X & _)]); [|discriminate].
        destruct (IH _ _ _ E2) as (new & -> & F). exists (new ++ [(c0, MBytes v)]). rewrite <- app_assoc. split; auto.
        rewrite rev_app_distr, notes_app, F. reflexivity.
      - unfold get, with_st in E1. cbn [fst] in E1. destruct (find (store s0) k) as [v|].
        + apply send_run in E1. destruct E1 as (_ & [(X & _)|(X & _)]); discriminate.
        + inversion E1; subst. exists []. auto. }
    destruct r0; cbn [unanswerable] in U; try (exact (False_ind _ U)); cbn [handle] in E.
    + unfold get, with_st in E. cbn [fst] in E. destruct (find (store s0) k).
      * apply send_run in E. destruct E as (_ & [(X & _)|(X & _)]); discriminate.
      * inversion E; subst. reflexivity.
    + unfold add, with_st in E. cbn [fst] in E. destruct (find (store s0) k) as [x|].
      * unfold total in U. destruct (stoll x).
        -- exfalso. destruct (find (store s0) k) eqn:FK; discriminate U || idtac.
           apply seq_run in E. destruct E as [(s2 & o2 & E1 & E2)|(_ & E1)]; [|discriminate E1].
           apply upd_run in E1. destruct E1 as (-> & -> & _). apply seq_run in E2. destruct E2 as [(s2 & o2 & E1 & E2)|(_ & E1)].
           ++ apply noise_run in E2; [|apply noise_seq; [apply noise_wakeup|apply noise_notify]]. destruct E2 as (_ & _ & _ & _ & X). congruence.
           ++ apply send_run in E1. destruct E1 as (_ & [(X & _)|(X & _)]); discriminate.
        -- inversion E; subst. reflexivity.
      * exfalso. apply seq_run in E. destruct E as [(s2 & o2 & E1 & E2)|(_ & E1)]; [|discriminate E1].
        apply upd_run in E1. destruct E1 as (-> & -> & _). apply seq_run in E2. destruct E2 as [(s2 & o2 & E1 & E2)|(_ & E1)].
        -- apply noise_run in E2; [|apply noise_seq; [apply noise_wakeup|apply noise_notify]]. destruct E2 as (_ & _ & _ & _ & X). congruence.
        -- apply send_run in E1. destruct E1 as (_ & [(X & _)|(X & _)]); discriminate.
    + destruct (QM ks [] _ _ E) as (new & -> & F). now rewrite app_nil_r.
Qed.

(** ** Departed watchers *)

(** A request of a connected client completes or is refused; it does not fail
    because of others. *)
Definition C49_undisturbed (ok : st -> list entry -> Prop) : Prop :=
  forall s h c r, reach s h -> orderly h -> ok s h -> In c (opened s) ->
  res (snd (step s (Request c r []))) <> SendFailed.

Definition Good (c : sock) (s : st) : Prop :=
  In c (opened s) /\ (forall k x, In x (waitl s k) -> In x (opened s)) /\ (forall k x, In x (watchers s k) -> In x (opened s)).
Definition Safe (c : sock) (X : M) : Prop := forall s o, Good c s ->
  exists s' o' st, X (s, o) = ((s', o'), st) /\ st <> SendFailed /\ Good c s'.

Lemma safe_seq c X Y : Safe c X -> Safe c Y -> Safe c (X ;; Y).
Proof.
  intros SX SY s o G. destruct (SX s o G) as (s1 & o1 & st1 & E1 & N1 & G1). unfold seq. rewrite E1.
  destruct st1; [|exists s1, o1, Refused; repeat split; auto; apply G1|congruence]. apply SY. exact G1.
Qed.
Lemma safe_with c f : (forall s, Good c s -> Safe c (f s)) -> Safe c (with_st f).
Proof. intros H s o G. unfold with_st. cbn [fst]. apply H; auto. Qed.
Lemma safe_ret c : Safe c ret.
Proof. intros s o G. exists s, o, Done. split; [reflexivity|]. split; [discriminate|auto]. Qed.
Lemma safe_refuse c : Safe c refuse.
Proof. intros s o G. exists s, o, Refused. split; [reflexivity|]. split; [discriminate|auto]. Qed.
Lemma safe_upd c f : (forall s, Good c s -> Good c (f s)) -> Safe c (upd f).
Proof. intros H s o G. exists (f s), o, Done. split; [reflexivity|]. split; [discriminate|auto]. Qed.
Lemma has_in l x : In x l -> has l x = true.
Proof. intros I. unfold has. apply existsb_exists. exists x. split; auto. apply Nat.eqb_refl. Qed.
Lemma send_ok c m s o : In c (opened s) -> send [] c m (s, o) = ((s, (c, m) :: o), Done).
Proof. intros I. unfold send. cbn [fst snd]. now rewrite has_in. Qed.
Lemma safe_send c m : Safe c (send [] c m).
Proof. intros s o G. rewrite send_ok by apply G. eexists _, _, _. split; [reflexivity|]. split; [discriminate|auto]. Qed.
Lemma safe_store c f : Safe c (upd (set_store f)).
Proof. apply safe_upd. auto. Qed.

(** A loop over connections that are open. *)
Lemma safe_wake_loop l : forall s o, (forall x, In x l -> In x (opened s)) ->
  exists s' o', wake_loop [] l (s, o) = ((s', o'), Done) /\ opened s' = opened s /\ waiting s' = waiting s /\ watched s' = watched s.
Proof.
  induction l as [|x l IH]; intros s o H; [exists s, o; auto|]. cbn [wake_loop]. unfold with_st, seq at 1, upd. cbn [fst snd].
  set (s1 := set_awaited _ s).
  assert (H1 : forall y, In y l -> In y (opened s1)) by (intros; apply H; cbn; auto).
  destruct (decr (get_awaited s x) =? 0)%Z.
  - unfold seq. rewrite send_ok by (apply H; cbn; auto). destruct (IH s1 ((x, MStop) :: o) H1) as (s' & o' & E & A). eauto.
  - unfold seq, ret. destruct (IH s1 o H1) as (s' & o' & E & A). eauto.
Qed.

Lemma waitl_drop c s k : Good c s -> Good c (set_waiting (fun d => erase d k) s).
Proof.
  intros (A & B & C). split; [exact A|]. split; [|exact C]. intros k' x. unfold waitl. cbn [waiting set_waiting opened]. rewrite find_erase.
  destruct (k =? k'); [intros []|apply B].
Qed.

Lemma safe_wakeup c k : Safe c (wakeup [] k).
Proof.
  intros s o G. unfold wakeup, with_st. cbn [fst]. destruct (find (waiting s) k) as [l|] eqn:F; [|apply safe_ret; auto].
  destruct (safe_wake_loop l s o) as (s' & o' & E & O & W & V).
  { intros x I. destruct G as (_ & G & _). apply (G k). unfold waitl. now rewrite F. }
  unfold seq. rewrite E. unfold upd. eexists _, _, _. split; [reflexivity|]. split; [discriminate|]. cbn [fst].
  apply waitl_drop. destruct G as (A & B & C). split; [now rewrite O|]. unfold waitl, watchers in *. rewrite O, W, V. auto.
Qed.

Lemma safe_notify c k t o n : Safe c (notify [] k t o n).
Proof.
  intros s o1 G. unfold notify, with_st. cbn [fst].
  assert (X : forall l o1, (forall x, In x l -> In x (opened s)) -> exists o', notify_loop [] l (MWatch t k o n) (s, o1) = ((s, o'), Done)).
  { induction l as [|x l IH]; intros o2 H; [exists o2; reflexivity|]. cbn [notify_loop]. unfold seq. rewrite send_ok by (apply H; cbn; auto).
    apply IH. intros; apply H; cbn; auto. }
  destruct (X (watchers s k) o1) as (o' & E); [intros x I; destruct G as (_ & _ & G); apply (G k); auto|].
  rewrite E. exists s, o', Done. split; auto. split; [discriminate|auto].
Qed.

Lemma safe_do_set c k v : Safe c (do_set [] k v).
Proof.
  apply safe_with. intros s G. apply safe_seq; [apply safe_store|]. apply safe_seq; [apply safe_wakeup|].
  destruct (find (store s) k); apply safe_notify.
Qed.
Lemma safe_get c k : Safe c (get [] c k).
Proof. apply safe_with. intros s G. destruct (find (store s) k); [apply safe_send|apply safe_refuse]. Qed.

Lemma good_enlist c ks : forall n s, Good c s -> Good c (fst (enlist c ks n s)).
Proof.
  induction ks as [|k ks IH]; intros n s G; auto. cbn [enlist]. destruct (find (store s) k); [apply IH; auto|]. apply IH.
  destruct G as (A & B & C). split; [exact A|]. split; [|exact C]. intros k' x. unfold waitl. cbn [waiting set_waiting opened]. rewrite find_put.
  destruct (Nat.eqb_spec k k') as [<-|]; [|apply B]. intros I. apply in_app_or in I. destruct I as [I|[<-|[]]]; auto. apply (B k). exact I.
Qed.

Lemma safe_handle c r : Safe c (handle [] c r).
Proof.
  destruct r; cbn [handle].
  - apply safe_do_set.
  - apply safe_with. intros s G. destruct (find (store s) k) as [x|].
    + destruct (text_eqb x expected); [|apply safe_send]. apply safe_seq; [apply safe_store|]. apply safe_seq; [apply safe_notify|apply safe_send].
    + destruct expected; [|apply safe_send]. apply safe_seq; [apply safe_store|]. apply safe_seq; [apply safe_notify|apply safe_send].
  - apply safe_get.
  - apply safe_with. intros s G. destruct (find (store s) k) as [x|]; [destruct (stoll x); [|apply safe_refuse]|];
      (apply safe_seq; [apply safe_store|]; apply safe_seq; [apply safe_send|]; apply safe_seq; [apply safe_wakeup|apply safe_notify]).
  - apply safe_with. intros s G. apply safe_send.
  - apply safe_with. intros s G. destruct (check_keys s ks); [apply safe_send|]. apply safe_upd. intros s1 G1.
    assert (X := good_enlist c ks 0%Z s1 G1). destruct (enlist c ks 0 s1) as [s2 n]. exact X.
  - apply safe_with. intros s G. apply safe_send.
  - intros s o G. unfold watch, with_st, seq, upd. cbn [fst snd].
    rewrite send_ok by (cbn; apply G). eexists _, _, _. split; [reflexivity|]. split; [discriminate|].
    destruct G as (A & B & C). split; [exact A|]. split; [exact B|].
    intros k' x. unfold watchers at 1. cbn [watched set_watched opened]. rewrite find_put. destruct (Nat.eqb_spec k k') as [<-|]; [|apply C].
    intros I. apply in_app_or in I. destruct I as [I|[<-|[]]]; auto. apply (C k). exact I.
  - apply safe_with. intros s G. destruct (find (store s) k); [|apply safe_send].
    apply safe_seq; [apply safe_notify|]. apply safe_seq; [apply safe_store|apply safe_send].
  - apply safe_with. intros s G. destruct (find (store s) k); (apply safe_seq; [apply safe_store|]; apply safe_seq; [apply safe_wakeup|apply safe_notify]).
  - induction ks as [|k ks IH]; cbn [multi_get]; [apply safe_ret|]. apply safe_seq; [apply safe_get|exact IH].
  - induction kvs as [|[k v] kvs IH]; cbn [multi_set]; [apply safe_ret|]. apply safe_seq; [apply safe_do_set|exact IH].
Qed.

(** As long as every connection that ever asked to watch is still open, clients
    are undisturbed. *)
Theorem C49_undisturbed_partial :
  C49_undisturbed (fun s h => forall w, asked_to_watch w h -> In w (opened s)).
Proof.
  intros s h c r R O W OP. apply orderly_tidy in O. destruct (invariant s h R O) as (HJ & _ & _).
  assert (G : Good c s).
  { split; auto. split.
    - intros k x I. apply (J_open _ _ HJ). intros E. assert (X := J_cnt _ _ HJ x k). cbv beta in X. rewrite E in X. cbn in X. apply cnt_0 in X. auto.
    - intros k x I. apply W. apply (watching_asked s h x R). exists k. exact I. }
  cbn [step]. destruct (safe_handle c r s [] G) as (s' & o' & st & E & N & _). rewrite E. destruct st; cbn; auto; discriminate.
Qed.

Module WatchDemo.
  Import Demo WaitDemo.
  (** 4 watches key 1 (twice) and key 2; 5 changes them. *)
  Definition es : list event :=
    [ Connect 4; Connect 5; Request 4 (WatchKey 1) []; Request 4 (WatchKey 1) []; Request 4 (WatchKey 2) [];
      Request 5 (Set_ 1 (lit "a")) []; Request 5 (Append 1 (lit "b")) []; Request 5 (MultiSet [(2, lit "x"); (1, lit "y"); (2, lit "z")]) [];
      Request 5 (DeleteKey 1) [] ].
  Example demo : reach (fst (run init [] es)) (h es) /\ reliable (h es) /\ orderly (h es) /\
    (forall w, asked_to_watch w (h es) -> In w (opened (fst (run init [] es)))) /\
    registrations 4 1 (h es) = 2 /\
    map (fun e => notes_to 4 (sent e)) (firstn 4 (h es)) =
      [ [(KeyDeleted, 1, lit "y", []); (KeyDeleted, 1, lit "y", [])];
        [(KeyCreated, 2, [], lit "x"); (KeyUpdated, 1, lit "ab", lit "y"); (KeyUpdated, 1, lit "ab", lit "y"); (KeyUpdated, 2, lit "x", lit "z")];
        [(KeyAppended, 1, [], lit "b"); (KeyAppended, 1, [], lit "b")];
        [(KeyCreated, 1, [], lit "a"); (KeyCreated, 1, [], lit "a")] ].
  Proof.
    split; [concrete es|]. split; [rel|]. split; [split; [pat|split; [rel|pla]]|]. split; [|split; reflexivity].
    intros w (k & d & st & out & I). vm_compute in I |- *.
    repeat (destruct I as [I|I]; [inversion I; subst; auto; fail|]). destruct I.
  Qed.
  (** 4 watches key 1 and leaves. *)
  Definition es1 : list event :=
    [ Connect 4; Connect 5; Request 5 (Set_ 1 (lit "a")) []; Request 4 (WatchKey 1) []; Hangup 4 ].
  (** Then another client connects and gets the same descriptor. *)
  Definition es2 : list event := es1 ++ [ Connect 4; Request 5 (Set_ 1 (lit "b")) [] ].
End WatchDemo.

(** After a watcher has left, an update by another client fails: a deletion is
    not performed, and the client's connection is closed. *)
Theorem C49_departed_watcher_refuted : ~ C49_undisturbed (fun _ _ => True) /\
  exists s h s' e, reach s h /\ orderly h /\ In 5 (opened s) /\
    step s (Request 5 (DeleteKey 1) []) = (s', e) /\ res e = SendFailed /\
    find (store s') 1 = Some (lit "a") /\ ~ In 5 (opened s').
Proof.
  assert (R : reach (fst (Demo.run init [] WatchDemo.es1)) (WaitDemo.h WatchDemo.es1)) by (WaitDemo.concrete WatchDemo.es1).
  assert (O : orderly (WaitDemo.h WatchDemo.es1)) by (split; [WaitDemo.pat|split; [WaitDemo.rel|WaitDemo.pla]]).
  split.
  - intros C. apply (C _ _ 5 (DeleteKey 1) R O I); vm_compute; auto.
  - eexists _, _, _, _. split; [exact R|]. split; [exact O|]. split; [vm_compute; auto|]. split; [reflexivity|].
    vm_compute. intuition discriminate.
Qed.

(** A new client that reuses the descriptor is notified of changes it never
    asked for: here connection 4 is new and has sent nothing. *)
Theorem C49_foreign_notification_refuted : exists s e h',
  reach s (e :: mkEntry (Connect 4) Done [] :: h') /\ orderly (e :: mkEntry (Connect 4) Done [] :: h') /\
  notes_to 4 (sent e) = [(KeyUpdated, 1, lit "a", lit "b")].
Proof.
  exists (fst (Demo.run init [] WatchDemo.es2)), (nth 0 (WaitDemo.h WatchDemo.es2) WaitDemo.blank), (skipn 2 (WaitDemo.h WatchDemo.es2)).
  split; [WaitDemo.concrete WatchDemo.es2|]. split; [|reflexivity].
  change (orderly (WaitDemo.h WatchDemo.es2)). split; [WaitDemo.pat|split; [WaitDemo.rel|WaitDemo.pla]].
Qed.

Print Assumptions C49_watchers_are_notified.
Print Assumptions C49_no_other_notification.
Print Assumptions C49_undisturbed_partial.
Print Assumptions C49_departed_watcher_refuted.
Print Assumptions C49_foreign_notification_refuted.
