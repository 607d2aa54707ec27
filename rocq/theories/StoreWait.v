(** * StoreWait: the tables of waiting clients of the rendezvous store, proofs *)
From Coq Require Import List Bool Arith ZArith Lia.
From Verif Require Import Dict PyStr SizeModel StoreModel StoreProps.
Import ListNotations.
Open Scope list_scope.
Open Scope nat_scope.

Ltac klia := unfold key, sock in *; lia.
Definition cnt (x : nat) (l : list nat) : nat := length (filter (Nat.eqb x) l).
Definition waitl (s : st) (k : key) : list sock := match find (waiting s) k with Some l => l | None => [] end.
Definition absent (s : st) (k : key) : bool := match find (store s) k with None => true | Some _ => false end.
Definition nilb {A} (l : list A) : bool := match l with [] => true | _ => false end.
Definition b2n (b : bool) : nat := if b then 1 else 0.

(** How often [c] is told to stop waiting. *)
Definition is_stop (c : sock) (cm : sock * msg) : bool :=
  (fst cm =? c) && match snd cm with MStop => true | _ => false end.
Definition stops (c : sock) (out : list (sock * msg)) : nat := length (filter (is_stop c) out).

Lemma stops_app c a b : stops c (a ++ b) = stops c a + stops c b.
Proof. unfold stops. now rewrite filter_app, app_length. Qed.
Lemma stops_rev c a : stops c (rev a) = stops c a.
Proof. induction a as [|x a IH]; auto. cbn [rev]. rewrite stops_app, IH. unfold stops. cbn [filter]. destruct (is_stop c x); cbn; lia. Qed.
Lemma stops_cons c x a : stops c (x :: a) = b2n (is_stop c x) + stops c a.
Proof. unfold stops. cbn [filter]. destruct (is_stop c x); cbn; lia. Qed.

Lemma cnt_cons x y l : cnt x (y :: l) = b2n (x =? y) + cnt x l.
Proof. unfold cnt. cbn [filter]. destruct (x =? y); cbn; lia. Qed.
Lemma cnt_app x a b : cnt x (a ++ b) = cnt x a + cnt x b.
Proof. unfold cnt. now rewrite filter_app, app_length. Qed.
Lemma cnt_le x l : cnt x l <= length l.
Proof. unfold cnt. induction l as [|y l IH]; cbn; auto. destruct (x =? y); cbn; lia. Qed.
Lemma cnt_0 x l : cnt x l = 0 <-> ~ In x l.
Proof.
  induction l as [|y l IH]; [cbn; tauto|]. rewrite cnt_cons. cbn [In]. destruct (Nat.eqb_spec x y) as [->|N]; cbn [b2n].
  - split; [lia|]. intros H. elim H. auto.
  - rewrite Nat.add_0_l, IH. intuition congruence.
Qed.

(** Without key [k]. *)
Definition rem (k : nat) (l : list nat) : list nat := filter (fun x => negb (x =? k)) l.
Lemma rem_length k l : length (rem k l) + cnt k l = length l.
Proof.
  unfold rem, cnt. induction l as [|y l IH]; cbn [filter length]; auto. rewrite (Nat.eqb_sym k y).
  destruct (y =? k); cbn [negb length]; lia.
Qed.
Lemma cnt_rem k k' l : cnt k' (rem k l) = if k =? k' then 0 else cnt k' l.
Proof.
  induction l as [|y l IH]; [cbn; now destruct (k =? k')|]. cbn [rem filter].
  destruct (Nat.eqb_spec y k) as [->|N]; cbn [negb]; fold (rem k l).
  - rewrite IH, cnt_cons. destruct (Nat.eqb_spec k k') as [->|]; auto.
    destruct (Nat.eqb_spec k' k); [congruence|reflexivity].
  - rewrite !cnt_cons, IH. destruct (Nat.eqb_spec k k') as [->|]; auto. destruct (Nat.eqb_spec k' y); [congruence|reflexivity].
Qed.
Lemma rem_nil k l : rem k l = [] <-> length l = cnt k l.
Proof.
  assert (H := rem_length k l). split.
  - intros E. rewrite E in H. cbn in H. lia.
  - intros E. assert (length (rem k l) = 0) by lia. now apply length_zero_iff_nil.
Qed.

(** ** The invariant; [P c] are the keys client [c] still waits for *)
Record J (s : st) (P : sock -> list key) : Prop := {
  J_nd : NoDup (gkeys (waiting s));
  J_cnt : forall c k, cnt c (waitl s k) = cnt k (P c);
  J_aw : forall c, get_awaited s c = Z.of_nat (length (P c));
  J_open : forall c, P c <> [] -> In c (opened s);
  J_abs : forall c k, In k (P c) -> find (store s) k = None }.

Lemma J_ext s P Q : (forall c, P c = Q c) -> J s P -> J s Q.
Proof.
  intros E [A B C D F]. constructor; auto.
  - intros c k. now rewrite <- E.
  - intros c. now rewrite <- E.
  - intros c. rewrite <- E. auto.
  - intros c k. rewrite <- E. eauto.
Qed.

Definition after (s : st) (P : sock -> list key) (c : sock) : list key := filter (absent s) (P c).

(** A completed step that serves the waiting clients correctly. *)
Definition Serves (X : M) : Prop := forall s o s' o' P,
  J s P -> X (s, o) = ((s', o'), Done) ->
  opened s' = opened s /\
  exists new, o' = new ++ o /\ J s' (after s' P) /\
    forall c, stops c new = b2n (negb (nilb (P c)) && nilb (after s' P c)).

Lemma after_same s s' P : J s P -> (forall k, find (store s) k = None -> find (store s') k = None) ->
  forall c, after s' P c = P c.
Proof.
  intros HJ H c. unfold after. assert (A := J_abs _ _ HJ c). induction (P c) as [|k l IH]; auto.
  cbn [filter]. unfold absent at 1. rewrite H by (apply A; cbn; auto). f_equal. apply IH. intros; apply A; cbn; auto.
Qed.

Lemma b2n_same (l : list key) : b2n (negb (nilb l) && nilb l) = 0.
Proof. now destruct l. Qed.

(** Steps that neither wake anybody nor create a key. *)
Definition Calm (X : M) : Prop := forall s o s' o' st,
  X (s, o) = ((s', o'), st) ->
  waiting s' = waiting s /\ awaited s' = awaited s /\ opened s' = opened s /\
  (forall k, find (store s) k = None -> find (store s') k = None) /\
  exists new, o' = new ++ o /\ forall c, stops c new = 0.

Lemma calm_serves X : Calm X -> Serves X.
Proof.
  intros C s o s' o' P HJ E. destruct (C _ _ _ _ _ E) as (W & A & O & ST & new & -> & N).
  split; auto. exists new. split; auto.
  assert (AS := after_same s s' P HJ ST).
  split.
  - apply (J_ext _ P); [intros; now rewrite AS|]. destruct HJ as [H1 H2 H3 H4 H5]. constructor.
    + now rewrite W.
    + unfold waitl in *. rewrite W. auto.
    + unfold get_awaited in *. rewrite A. auto.
    + rewrite O. auto.
    + eauto.
  - intros c. rewrite N, AS, b2n_same. reflexivity.
Qed.

Lemma calm_seq X Y : Calm X -> Calm Y -> Calm (X ;; Y).
Proof.
  intros CX CY s o s' o' st E. apply seq_run in E. destruct E as [(s1 & o1 & E1 & E2)|(_ & E1)].
  - destruct (CX _ _ _ _ _ E1) as (W & A & O & S1 & n1 & -> & N1).
    destruct (CY _ _ _ _ _ E2) as (W' & A' & O' & S2 & n2 & -> & N2).
    repeat split; try congruence; auto. exists (n2 ++ n1). rewrite app_assoc. split; auto.
    intros c. now rewrite stops_app, N1, N2.
  - eauto.
Qed.
Lemma calm_with f : (forall s, Calm (f s)) -> Calm (with_st f).
Proof. intros H s o s' o' st E. unfold with_st in E. eapply H; eauto. Qed.
Lemma calm_send dead c m : m <> MStop -> Calm (send dead c m).
Proof.
  intros N s o s' o' st E. apply send_run in E. destruct E as (-> & E). repeat split; auto.
  destruct E as [(_ & ->)|(_ & ->)].
  - exists [(c, m)]. split; auto. intros c'. rewrite stops_cons. unfold is_stop. cbn [snd].
    destruct m; try congruence; now rewrite andb_false_r.
  - exists []. auto.
Qed.
Lemma calm_ret : Calm ret.
Proof. intros s o s' o' st E. inversion E; subst. repeat split; auto. exists []. auto. Qed.
Lemma calm_refuse : Calm refuse.
Proof. intros s o s' o' st E. inversion E; subst. repeat split; auto. exists []. auto. Qed.
Lemma calm_notify dead k t o n : Calm (notify dead k t o n).
Proof.
  apply calm_with. intros s. induction (watchers s k) as [|c l IH]; [apply calm_ret|].
  cbn [notify_loop]. apply calm_seq; auto. apply calm_send. discriminate.
Qed.

(** *** Waking *)
Lemma wake_loop_ok dead L : forall s o s' o',
  (forall c, (Z.of_nat (cnt c L) <= get_awaited s c)%Z) ->
  wake_loop dead L (s, o) = ((s', o'), Done) ->
  store s' = store s /\ waiting s' = waiting s /\ opened s' = opened s /\
  (forall c, get_awaited s' c = get_awaited s c - Z.of_nat (cnt c L))%Z /\
  exists new, o' = new ++ o /\
    forall c, stops c new = b2n ((0 <? cnt c L) && (Z.of_nat (cnt c L) =? get_awaited s c)%Z).
Proof.
  induction L as [|x L IH]; intros s o s' o' G E; cbn [wake_loop] in E.
  - inversion E; subst. repeat split; auto; [intros; cbn; lia|]. exists []. auto.
  - unfold with_st in E. cbn [fst] in E. apply seq_run in E. destruct E as [(s1 & o1 & E1 & E2)|(N & _)]; [|congruence].
    apply upd_run in E1. destruct E1 as (-> & -> & _).
    assert (GX := G x). rewrite cnt_cons, Nat.eqb_refl in GX. cbn [b2n] in GX.
    assert (DX : decr (get_awaited s x) = (get_awaited s x - 1)%Z).
    { unfold decr. destruct (Z.eqb_spec (get_awaited s x) 0); lia. }
    rewrite DX in E2.
    set (s1 := set_awaited (fun d => put d x (get_awaited s x - 1)%Z) s) in *.
    assert (AW : forall c, get_awaited s1 c = if x =? c then (get_awaited s x - 1)%Z else get_awaited s c).
    { intros c. unfold get_awaited, s1. cbn [awaited set_awaited]. rewrite find_put. destruct (x =? c); auto. }
    assert (G1 : forall c, (Z.of_nat (cnt c L) <= get_awaited s1 c)%Z).
    { intros c. rewrite AW. destruct (Nat.eqb_spec x c) as [<-|N]; [lia|]. specialize (G c). rewrite cnt_cons in G.
      destruct (Nat.eqb_spec c x); [congruence|]. cbn in G. lia. }
    apply seq_run in E2. destruct E2 as [(s2 & o2 & E2 & E3)|(N & _)]; [|congruence].
    assert (E2' : s2 = s1 /\ exists n0, o2 = n0 ++ o /\ forall c, stops c n0 = b2n ((x =? c) && (get_awaited s x =? 1)%Z)).
    { destruct (Z.eqb_spec (get_awaited s x - 1) 0) as [Z0|Z0].
      - apply send_run in E2. destruct E2 as (-> & [(_ & ->)|(? & _)]); [|discriminate]. split; auto.
        exists [(x, MStop)]. split; auto. intros c. rewrite stops_cons. unfold is_stop. cbn [fst snd].
        destruct (Z.eqb_spec (get_awaited s x) 1); [|lia]. cbn. destruct (x =? c); reflexivity.
      - inversion E2; subst. split; auto. exists []. split; auto. intros c.
        destruct (Z.eqb_spec (get_awaited s x) 1); [lia|]. now rewrite andb_false_r. }
    destruct E2' as (-> & n0 & -> & N0).
    destruct (IH _ _ _ _ G1 E3) as (S & W & O & A & n1 & -> & N1).
    split; [exact S|]. split; [exact W|]. split; [exact O|]. split.
    + intros c. rewrite A, AW, cnt_cons. rewrite (Nat.eqb_sym c x). destruct (Nat.eqb_spec x c) as [<-|N]; cbn [b2n]; lia.
    + exists (n1 ++ n0). rewrite app_assoc. split; auto. intros c. rewrite stops_app, N0, N1, AW, cnt_cons.
      rewrite (Nat.eqb_sym c x). destruct (Nat.eqb_spec x c) as [<-|N]; cbn [b2n andb]; [|now rewrite !Nat.add_0_r].
      destruct (Z.eqb_spec (get_awaited s x) 1) as [E1|E1].
      * assert (cnt x L = 0) by lia. rewrite H. cbn. rewrite E1. reflexivity.
      * cbn [b2n]. rewrite Nat.add_0_r. replace (0 <? 1 + cnt x L) with true by reflexivity. cbn [andb].
        destruct (Nat.ltb_spec 0 (cnt x L)); cbn [andb].
        -- f_equal. apply eq_true_iff_eq. rewrite !Z.eqb_eq. lia.
        -- assert (cnt x L = 0) by lia. destruct (Z.eqb_spec (Z.of_nat (1 + cnt x L)) (get_awaited s x)); [lia|reflexivity].
Qed.

Lemma NoDup_erase_w (d : list (key * list sock)) k : NoDup (gkeys d) -> NoDup (gkeys (erase d k)).
Proof. apply (NoDup_gdel _ Nat.eqb_spec). Qed.
Lemma NoDup_put_w (d : list (key * list sock)) k v : NoDup (gkeys d) -> NoDup (gkeys (put d k v)).
Proof. apply (NoDup_gset _ Nat.eqb_spec). Qed.

(** Setting key [k], waking its waiters. *)
Lemma serve_write dead k v s o s' o' P : J s P ->
  (upd (set_store (fun d => put d k v)) ;; wakeup dead k) (s, o) = ((s', o'), Done) ->
  opened s' = opened s /\ store s' = put (store s) k v /\
  exists new, o' = new ++ o /\ J s' (fun c => rem k (P c)) /\
    forall c, stops c new = b2n (negb (nilb (P c)) && nilb (rem k (P c))).
Proof.
  intros HJ E. apply seq_run in E. destruct E as [(s1 & o1 & E1 & E)|(N & _)]; [|congruence].
  apply upd_run in E1. destruct E1 as (-> & -> & _).
  destruct HJ as [ND C A O AB].
  assert (AB' : forall c k', In k' (rem k (P c)) -> find (put (store s) k v) k' = None).
  { intros c k' I. unfold rem in I. apply filter_In in I. destruct I as [I1 I2]. rewrite find_put.
    destruct (Nat.eqb_spec k k') as [<-|]; [rewrite Nat.eqb_refl in I2; discriminate|eauto]. }
  assert (RN : forall c, rem k (P c) <> [] -> P c <> []).
  { intros c H E0. rewrite E0 in H. apply H. reflexivity. }
  unfold wakeup, with_st in E. cbn [fst] in E. change (waiting (set_store (fun d => put d k v) s)) with (waiting s) in E.
  destruct (find (waiting s) k) as [L|] eqn:F.
  - assert (WL : waitl s k = L) by (unfold waitl; now rewrite F).
    apply seq_run in E. destruct E as [(s2 & o2 & E1 & E2)|(N & _)]; [|congruence].
    apply upd_run in E2. destruct E2 as (-> & -> & _).
    apply wake_loop_ok in E1.
    2:{ intros c. change (get_awaited (set_store (fun d => put d k v) s) c) with (get_awaited s c). rewrite A, <- WL, C.
        assert (H := cnt_le k (P c)). klia. }
    destruct E1 as (S1 & W1 & O1 & A1 & new & -> & N1).
    split; [exact O1|]. split; [exact S1|]. exists new. split; auto. split.
    + constructor.
      * cbn [waiting set_waiting]. apply NoDup_erase_w. rewrite W1. exact ND.
      * intros c k'. unfold waitl. cbn [waiting set_waiting]. rewrite find_erase, W1, cnt_rem.
        destruct (k =? k') ; auto. apply C.
      * intros c. change (get_awaited (set_waiting (fun d => erase d k) s2) c) with (get_awaited s2 c). rewrite A1.
        change (get_awaited (set_store (fun d => put d k v) s) c) with (get_awaited s c). rewrite A, <- WL, C.
        assert (H := rem_length k (P c)). klia.
      * intros c H. cbn [opened set_waiting]. rewrite O1. apply O. auto.
      * cbn [store set_waiting]. rewrite S1. exact AB'.
    + intros c. rewrite N1. change (get_awaited (set_store (fun d => put d k v) s) c) with (get_awaited s c). rewrite A, <- WL, C.
      f_equal. apply eq_true_iff_eq. rewrite !andb_true_iff, Nat.ltb_lt, Z.eqb_eq.
      assert (H := rem_nil k (P c)). destruct (rem k (P c)) as [|y l]; destruct (P c) as [|z l']; cbn [nilb negb].
      * cbn. intuition klia.
      * destruct H as [H _]. specialize (H eq_refl). rewrite <- H. cbn [length]. intuition klia.
      * cbn. intuition klia.
      * destruct H as [_ H]. assert (cnt k (z :: l') <> length (z :: l')) by (intros X; symmetry in X; apply H in X; discriminate).
        intuition (try klia; try discriminate).
  - inversion E; subst. split; auto. split; auto. exists []. split; auto.
    assert (Z0 : forall c, cnt k (P c) = 0).
    { intros c. rewrite <- C. unfold waitl. now rewrite F. }
    assert (RS : forall c, rem k (P c) = P c).
    { intros c. specialize (Z0 c). apply cnt_0 in Z0. unfold rem. induction (P c) as [|y l IH]; auto. cbn [filter].
      destruct (Nat.eqb_spec y k) as [->|]; [elim Z0; cbn; auto|]. cbn [negb]. f_equal. apply IH. intros I. apply Z0. cbn. auto. }
    split.
    + apply (J_ext _ P); [intros; now rewrite RS|]. constructor; auto. intros c k' I. cbn [store set_store]. apply (AB' c). now rewrite RS.
    + intros c. rewrite RS, b2n_same. reflexivity.
Qed.

Lemma rem_after s s' k v P : J s P -> store s' = put (store s) k v -> forall c, rem k (P c) = after s' P c.
Proof.
  intros HJ E c. assert (A := J_abs _ _ HJ c). unfold rem, after. induction (P c) as [|y l IH]; auto.
  cbn [filter]. unfold absent at 1. rewrite E, find_put, (Nat.eqb_sym k y). destruct (Nat.eqb_spec y k) as [->|N]; cbn [negb].
  - apply IH. intros; apply A; cbn; auto.
  - rewrite A by (cbn; auto). f_equal. apply IH. intros; apply A; cbn; auto.
Qed.

Lemma seq_assoc (X Y Z : M) w : (X ;; Y ;; Z) w = ((X ;; Y) ;; Z) w.
Proof. unfold seq. destruct (X w) as [w1 []]; auto. Qed.

Lemma calm_store_same X s o s' o' st : Noise X -> X (s, o) = ((s', o'), st) -> store s' = store s.
Proof. intros N E. apply noise_run in E; auto. destruct E as (? & _ & ? & _). auto. Qed.

(** Serving and then a noisy calm step. *)
Lemma write_then dead k v Y s o s' o' P : Calm Y -> Noise Y -> J s P ->
  (upd (set_store (fun d => put d k v)) ;; wakeup dead k ;; Y) (s, o) = ((s', o'), Done) ->
  opened s' = opened s /\ store s' = put (store s) k v /\
  exists new, o' = new ++ o /\ J s' (after s' P) /\
    forall c, stops c new = b2n (negb (nilb (P c)) && nilb (after s' P c)).
Proof.
  intros CY NY HJ E. rewrite seq_assoc in E. apply seq_run in E. destruct E as [(s1 & o1 & E1 & E2)|(N & _)]; [|congruence].
  destruct (serve_write _ _ _ _ _ _ _ _ HJ E1) as (O1 & S1 & n1 & -> & J1 & N1).
  assert (S2 := calm_store_same _ _ _ _ _ _ NY E2).
  destruct (CY _ _ _ _ _ E2) as (W2 & A2 & O2 & _ & n2 & -> & N2).
  split; [congruence|]. split; [congruence|]. exists (n2 ++ n1). rewrite app_assoc. split; auto.
  assert (RA : forall c, rem k (P c) = after s' P c) by (apply (rem_after s s' k v); auto; congruence).
  split.
  - apply (J_ext _ (fun c => rem k (P c))); auto. destruct J1 as [H1 H2 H3 H4 H5]. constructor.
    + now rewrite W2.
    + unfold waitl in *. rewrite W2. auto.
    + unfold get_awaited in *. rewrite A2. auto.
    + rewrite O2. auto.
    + rewrite S2. auto.
  - intros c. rewrite stops_app, N2, N1. now rewrite RA.
Qed.

Lemma serves_do_set dead k v : Serves (do_set dead k v).
Proof.
  intros s o s' o' P HJ E. unfold do_set, with_st in E. cbn [fst] in E.
  eapply write_then in E; eauto.
  - destruct E as (? & _ & ?). auto.
  - destruct (find (store s) k); apply calm_notify.
  - destruct (find (store s) k); apply noise_notify.
Qed.

Lemma serves_append dead k v : Serves (append dead k v).
Proof.
  intros s o s' o' P HJ E. unfold append, with_st in E. cbn [fst] in E.
  destruct (find (store s) k); eapply write_then in E; eauto using calm_notify, noise_notify; destruct E as (? & _ & ?); auto.
Qed.


Lemma serves_add_aux dead c k v z Y s o s' o' P : Calm Y -> Noise Y -> J s P ->
  (upd (set_store (fun d => put d k v)) ;; send dead c (MValue z) ;; wakeup dead k ;; Y) (s, o) = ((s', o'), Done) ->
  opened s' = opened s /\
  exists new, o' = new ++ o /\ J s' (after s' P) /\
    forall c, stops c new = b2n (negb (nilb (P c)) && nilb (after s' P c)).
Proof.
  intros CY NY HJ E. apply seq_run in E. destruct E as [(s1 & o1 & E1 & E)|(N & _)]; [|congruence].
  apply upd_run in E1. destruct E1 as (-> & -> & _).
  apply seq_run in E. destruct E as [(s2 & o2 & E2 & E)|(N & _)]; [|congruence].
  apply send_run in E2. destruct E2 as (-> & [(_ & ->)|(X & _)]); [|discriminate].
  assert (E' : (upd (set_store (fun d => put d k v)) ;; wakeup dead k ;; Y) (s, (c, MValue z) :: o) = (s', o', Done)).
  { unfold seq at 1, upd. exact E. }
  eapply write_then in E'; eauto. destruct E' as (O & _ & new & -> & J' & N'). split; auto.
  exists (new ++ [(c, MValue z)]). split; [now rewrite <- app_assoc|]. split; auto.
  intros c'. rewrite stops_app, N', stops_cons. unfold is_stop. cbn [snd]. rewrite andb_false_r. cbn. klia.
Qed.

Lemma serves_add dead c k z : Serves (add dead c k z).
Proof.
  intros s o s' o' P HJ E. unfold add, with_st in E. cbn [fst] in E.
  destruct (find (store s) k) as [x|].
  - destruct (stoll x); [|discriminate E]. eapply serves_add_aux in E; eauto using calm_notify, noise_notify.
  - eapply serves_add_aux in E; eauto using calm_notify, noise_notify.
Qed.

Lemma serves_multi_set dead kvs : Serves (multi_set dead kvs) /\
  forall s o s' o', multi_set dead kvs (s, o) = ((s', o'), Done) -> forall k, find (store s') k = None -> find (store s) k = None.
Proof.
  induction kvs as [|[k v] kvs [IH1 IH2]]; cbn [multi_set].
  - split; [apply calm_serves, calm_ret|]. intros s o s' o' E. inversion E; subst. auto.
  - assert (GR : forall s o s' o', (do_set dead k v ;; multi_set dead kvs) (s, o) = ((s', o'), Done) ->
      exists s1 o1, do_set dead k v (s, o) = ((s1, o1), Done) /\ multi_set dead kvs (s1, o1) = ((s', o'), Done) /\
        store s1 = put (store s) k v).
    { intros s o s' o' E. apply seq_run in E. destruct E as [(s1 & o1 & E1 & E2)|(N & _)]; [|congruence].
      exists s1, o1. split; auto. split; auto. unfold do_set, with_st in E1. cbn [fst] in E1.
      apply seq_run in E1. destruct E1 as [(s2 & o2 & E1 & E3)|(N & _)]; [|congruence].
      apply upd_run in E1. destruct E1 as (-> & -> & _). apply calm_store_same in E3; [exact E3|].
      apply noise_seq; [apply noise_wakeup|]. destruct (find (store s) k); apply noise_notify. }
    split.
    + intros s o s' o' P HJ E. destruct (GR _ _ _ _ E) as (s1 & o1 & E1 & E2 & _).
      destruct (serves_do_set dead k v _ _ _ _ _ HJ E1) as (O1 & n1 & -> & J1 & N1).
      destruct (IH1 _ _ _ _ _ J1 E2) as (O2 & n2 & -> & J2 & N2).
      assert (AA : forall c, after s' (after s1 P) c = after s' P c).
      { intros c. unfold after. induction (P c) as [|y l IHl]; auto. cbn [filter].
        destruct (absent s1 y) eqn:A1; cbn [filter].
        - rewrite IHl. reflexivity.
        - rewrite IHl. unfold absent in A1 |- *. destruct (find (store s') y) eqn:F; auto.
          rewrite (IH2 _ _ _ _ E2 y F) in A1. discriminate. }
      split; [congruence|]. exists (n2 ++ n1). rewrite app_assoc. split; auto. split; [eapply J_ext; [exact AA|auto]|].
      intros c. rewrite stops_app, N1, N2, AA.
      assert (MN : after s1 P c = [] -> after s' P c = []) by (intros H; rewrite <- AA; unfold after at 1; rewrite H; reflexivity).
      assert (NP : P c = [] -> after s1 P c = []) by (unfold after; intros ->; reflexivity).
      destruct (P c); cbn [nilb negb andb b2n].
      * rewrite MN, NP by auto. reflexivity.
      * destruct (after s1 P c); cbn [nilb negb andb b2n]; [rewrite MN by auto|]; cbn; auto; klia.
    + intros s o s' o' E k' F. destruct (GR _ _ _ _ E) as (s1 & o1 & E1 & E2 & S1).
      assert (H := IH2 _ _ _ _ E2 k' F). rewrite S1, find_put in H. destruct (k =? k'); [discriminate|auto].
Qed.

Lemma calm_put_old dead c k e d : forall s x, find (store s) k = Some x ->
  Calm (fun w => if (match find (store (fst w)) k with Some _ => true | None => false end)
                 then (upd (set_store (fun y => put y k d)) ;; notify dead k KeyUpdated e d ;; send dead c (MBytes d)) w
                 else ret w).
Proof.
  intros _ _ _ s o s' o' st E. cbn [fst] in E. destruct (find (store s) k) as [x|] eqn:F.
  - apply seq_run in E. destruct E as [(s1 & o1 & E1 & E)|(_ & E)].
    + apply upd_run in E1. destruct E1 as (-> & -> & _).
      assert (C : Calm (notify dead k KeyUpdated e d ;; send dead c (MBytes d)))
        by (apply calm_seq; [apply calm_notify|apply calm_send; discriminate]).
      destruct (C _ _ _ _ _ E) as (W & A & O & S & N). repeat split; auto.
      intros k' H. apply S. cbn [store set_store]. rewrite find_put. destruct (Nat.eqb_spec k k') as [<-|]; [congruence|auto].
    + apply upd_run in E. destruct E as (-> & -> & ->). repeat split; auto; [|exists []; auto].
      intros k' H. cbn [store set_store]. rewrite find_put. destruct (Nat.eqb_spec k k') as [<-|]; [congruence|auto].
  - inversion E; subst. repeat split; auto. exists []. auto.
Qed.

(** compare_set, unless it creates the key *)
Lemma serves_compare_set dead c k e d s o s' o' P : J s P ->
  (e = [] -> exists x, find (store s) k = Some x) ->
  compare_set dead c k e d (s, o) = ((s', o'), Done) ->
  opened s' = opened s /\ exists new, o' = new ++ o /\ J s' (after s' P) /\
    forall c, stops c new = b2n (negb (nilb (P c)) && nilb (after s' P c)).
Proof.
  intros HJ NC E. unfold compare_set, with_st in E. cbn [fst] in E.
  destruct (find (store s) k) as [x|] eqn:F.
  - destruct (text_eqb x e).
    + apply (calm_serves _ (calm_put_old dead c k e d s x F) s o s' o' P HJ). cbn [fst]. now rewrite F.
    + apply (calm_serves _ (calm_send dead c (MBytes x) (fun X => match X with eq_refl => I end)) s o s' o' P HJ E).
  - destruct e as [|a e]; [destruct (NC eq_refl) as (x & X); discriminate|].
    apply (calm_serves _ (calm_send dead c (MBytes (a :: e)) (fun X => match X with eq_refl => I end)) s o s' o' P HJ E).
Qed.

Lemma calm_get dead c k : Calm (get dead c k).
Proof. apply calm_with. intros s. destruct (find (store s) k); [apply calm_send; discriminate|apply calm_refuse]. Qed.
Lemma calm_multi_get dead c ks : Calm (multi_get dead c ks).
Proof. induction ks; cbn [multi_get]; [apply calm_ret|]. apply calm_seq; auto using calm_get. Qed.
Lemma calm_watch dead c k : Calm (watch dead c k).
Proof.
  apply calm_with. intros s. apply calm_seq; [|apply calm_send; discriminate].
  intros s1 o s' o' st E. apply upd_run in E. destruct E as (-> & -> & ->). repeat split; auto. exists []. auto.
Qed.
Lemma calm_delete dead c k : Calm (delete dead c k).
Proof.
  apply calm_with. intros s. destruct (find (store s) k); [|apply calm_send; discriminate].
  apply calm_seq; [apply calm_notify|]. apply calm_seq; [|apply calm_send; discriminate].
  intros s1 o s' o' st E. apply upd_run in E. destruct E as (-> & -> & ->). repeat split; auto; [|exists []; auto].
  intros k' H. cbn [store set_store]. rewrite find_erase. destruct (k =? k'); auto.
Qed.

(** *** Waiting *)
Definition upd_at (P : sock -> list key) (c : sock) (l : list key) (c' : sock) : list key := if c =? c' then l else P c'.

Lemma enlist_ok c ks : forall n s P, J s P -> In c (opened s) ->
  forall s' n', enlist c ks n s = (s', n') ->
  store s' = store s /\ opened s' = opened s /\ awaited s' = awaited s /\ NoDup (gkeys (waiting s')) /\
  (forall c' k, cnt c' (waitl s' k) = cnt c' (waitl s k) + (if c =? c' then cnt k (filter (absent s) ks) else 0)) /\
  n' = (n + Z.of_nat (length (filter (absent s) ks)))%Z.
Proof.
  intros n s P HJ OP. assert (ND := J_nd _ _ HJ). clear HJ P. revert n s ND OP.
  induction ks as [|k ks IH]; intros n s ND OP s' n' E; cbn [enlist] in E.
  - inversion E; subst. repeat split; auto; [intros; destruct (c =? c'); cbn; klia|cbn; klia].
  - cbn [filter]. assert (AB : absent s k = match find (store s) k with None => true | Some _ => false end) by reflexivity.
    destruct (find (store s) k) eqn:F; rewrite AB; [exact (IH _ _ ND OP _ _ E)|].
    set (s1 := set_waiting _ s) in E.
    assert (ND1 : NoDup (gkeys (waiting s1))) by (unfold s1; cbn; now apply NoDup_put_w).
    destruct (IH _ s1 ND1 OP _ _ E) as (S & O & A & N & C & NN).
    split; [exact S|]. split; [exact O|]. split; [exact A|]. split; [exact N|]. split.
    + intros c' k'. rewrite C. change (filter (absent s1) ks) with (filter (absent s) ks).
      unfold waitl at 1, s1. cbn [waiting set_waiting]. rewrite find_put. destruct (Nat.eqb_spec k k') as [<-|NK].
      * fold (waitl s k). rewrite cnt_app, !cnt_cons. cbn [cnt filter length b2n]. rewrite Nat.eqb_refl, (Nat.eqb_sym c' c).
        destruct (c =? c'); cbn [b2n]; klia.
      * fold (waitl s k'). rewrite cnt_cons. destruct (Nat.eqb_spec k' k); [congruence|]. cbn [b2n]. destruct (c =? c'); klia.
    + rewrite NN. change (filter (absent s1) ks) with (filter (absent s) ks). cbn [length]. klia.
Qed.

Lemma J_wait c ks s P s' n : J s P -> In c (opened s) -> P c = [] ->
  enlist c ks 0 s = (s', n) -> J (set_awaited (fun d => put d c n) s') (upd_at P c (filter (absent s) ks)).
Proof.
  intros HJ OP PC E. destruct (enlist_ok c ks 0%Z s P HJ OP s' n E) as (S & O & A & N & C & NN).
  destruct HJ as [H1 H2 H3 H4 H5]. constructor.
  - exact N.
  - intros c' k. change (waitl (set_awaited (fun d => put d c n) s') k) with (waitl s' k). rewrite C, H2. unfold upd_at.
    destruct (Nat.eqb_spec c c') as [<-|]; [rewrite PC; reflexivity|klia].
  - intros c'. unfold get_awaited, upd_at. cbn [awaited set_awaited]. rewrite find_put, A. destruct (c =? c'); [klia|]. apply H3.
  - intros c'. unfold upd_at. cbn [opened set_awaited]. rewrite O. destruct (Nat.eqb_spec c c') as [<-|]; auto.
  - intros c' k. unfold upd_at. cbn [store set_awaited]. rewrite S. destruct (c =? c'); [|apply H5].
    intros I. apply filter_In in I. destruct I as [_ I]. unfold absent in I. destruct (find (store s) k); [discriminate|auto].
Qed.

(** *** Closing a connection *)
Lemma find_drop c d k : NoDup (gkeys d) ->
  match find (drop_waiting c d) k with Some l => l | None => [] end
  = remove_sock c (match find d k with Some l => l | None => [] end).
Proof.
  unfold drop_waiting, find. induction d as [|[k0 l0] d IH]; intros ND; auto.
  cbn [gkeys map fst] in ND. inversion ND as [|? ? NI ND']; subst. cbn [map filter snd fst gget].
  destruct (Nat.eqb_spec k0 k) as [->|N].
  - assert (G : gget Nat.eqb (filter (fun kl => match snd kl with [] => false | _ => true end)
                 (map (fun kl => (fst kl, remove_sock c (snd kl))) d)) k = None).
    { apply (gget_None _ Nat.eqb_spec). intros I. apply NI. unfold gkeys in I. apply in_map_iff in I.
      destruct I as ([k1 l1] & E & I). cbn in E. subst k1. apply filter_In in I. destruct I as [I _].
      apply in_map_iff in I. destruct I as ([k2 l2] & E & I). inversion E; subst. apply (in_map fst) in I. exact I. }
    destruct (remove_sock c l0) as [|x l] eqn:R; cbn [gget].
    + rewrite G. reflexivity.
    + rewrite Nat.eqb_refl. reflexivity.
  - destruct (remove_sock c l0) as [|x l] eqn:R; cbn [gget]; [now apply IH|].
    destruct (Nat.eqb_spec k0 k); [congruence|]. now apply IH.
Qed.

Lemma NoDup_drop c d : NoDup (gkeys d) -> NoDup (gkeys (drop_waiting c d)).
Proof.
  unfold drop_waiting, gkeys. induction d as [|[k0 l0] d IH]; intros ND; [constructor|].
  cbn [map fst] in ND. inversion ND as [|? ? NI ND']; subst. cbn [map filter snd fst].
  assert (I : NoDup (map fst (filter (fun kl => match snd kl with [] => false | _ => true end)
                 (map (fun kl => (fst kl, remove_sock c (snd kl))) d)))) by now apply IH.
  destruct (remove_sock c l0); auto. cbn [map fst]. constructor; auto.
  intros X. apply NI. apply in_map_iff in X. destruct X as ([k1 l1] & E & X). cbn in E. subst k1.
  apply filter_In in X. destruct X as [X _]. apply in_map_iff in X. destruct X as ([k2 l2] & E & X).
  inversion E; subst. apply (in_map fst) in X. exact X.
Qed.

Lemma cnt_remove_sock c c' l : cnt c' (remove_sock c l) = if c =? c' then 0 else cnt c' l.
Proof. exact (cnt_rem c c' l). Qed.

Lemma J_close c s P : J s P -> J (close c s) (upd_at P c []).
Proof.
  intros [H1 H2 H3 H4 H5]. constructor.
  - cbn. now apply NoDup_drop.
  - intros c' k. unfold waitl. cbn [waiting close]. rewrite find_drop by auto. rewrite cnt_remove_sock. unfold upd_at.
    destruct (c =? c'); auto. apply H2.
  - intros c'. unfold get_awaited, upd_at. cbn [awaited close]. rewrite find_erase. destruct (c =? c'); auto. apply H3.
  - intros c'. unfold upd_at. cbn [opened close]. unfold remove_sock. destruct (Nat.eqb_spec c c') as [<-|N]; [congruence|].
    intros H. apply filter_In. split; auto. apply negb_true_iff. apply Nat.eqb_neq. congruence.
  - intros c' k. unfold upd_at. cbn [store close]. destruct (c =? c'); [intros []|]. apply H5.
Qed.

Lemma upd_at_nil P c : P c = [] -> forall c', upd_at P c [] c' = P c'.
Proof. intros E c'. unfold upd_at. destruct (Nat.eqb_spec c c') as [<-|]; auto. Qed.

(** A refused request leaves the state unchanged and wakes nobody. *)
Lemma refused_unchanged dead c r s o s' o' : NoDup (gkeys (store s)) -> handle dead c r (s, o) = ((s', o'), Refused) ->
  s' = s /\ exists new, o' = new ++ o /\ forall c, stops c new = 0.
Proof.
  intros ND E. destruct (correct_handle dead c r s o s' o' Refused (find (store s)) ND (fun _ => eq_refl) E) as (_ & _ & _ & _ & U).
  destruct r; cbn [unanswerable] in U; try (exact (False_ind _ U)); cbn [handle] in E.
  - unfold get, with_st in E. cbn [fst] in E. destruct (find (store s) k).
    + apply send_run in E. destruct E as (_ & [(X & _)|(X & _)]); discriminate.
    + inversion E; subst. split; auto. exists []. auto.
  - unfold add, with_st in E. cbn [fst] in E. unfold total in U. destruct (find (store s) k); [|discriminate].
    destruct (stoll v); [discriminate|]. inversion E; subst. split; auto. exists []. auto.
  - assert (C := calm_multi_get dead c ks _ _ _ _ _ E). destruct C as (_ & _ & _ & _ & C).
    apply correct_multi_get with (m := find (store s)) in E; auto. destruct E as (-> & _). auto.
Qed.
