(** * C37: clients waiting at the rendezvous store are answered

    How to read.  Histories are those of StoreProps (newest entry first).
    [contents_of h] is the content of a plain map after the requests of [h].
    A wait asked in the entry [ask] is followed by [newer].  Key [k] "has been
    present since the client asked" ([seen]) when the map contained it at some
    moment from the asking to now.  The theorem says how often the client is
    told to stop waiting up to now: once if all its keys have been seen, and
    not at all otherwise.

    This holds in [orderly] histories: no send failed, no client sends a
    request while its wait is unanswered (a client does that only after a
    time-out), and no [compare_set] created a key.  In the presence of any of
    these the property fails, as shown at the end. *)
From Coq Require Import List Bool Arith ZArith Ascii String Lia.
From Verif Require Import Dict PyStr SizeModel StoreModel StoreProps StoreWait.
Import ListNotations.
Open Scope list_scope.
Open Scope nat_scope.

(** ** Specification *)
Fixpoint contents_of (h : list entry) : contents :=
  match h with
  | [] => fun _ => None
  | e :: h' =>
      match ev e, res e with
      | Request _ r _, Done => next (contents_of h') r
      | _, _ => contents_of h'
      end
  end.

(** How often [c] is told to stop waiting in this part of a history. *)
Definition told (c : sock) (cm : sock * msg) : bool :=
  (fst cm =? c) && match snd cm with MStop => true | _ => false end.
Fixpoint answers (c : sock) (h : list entry) : nat :=
  match h with [] => 0 | e :: h' => List.length (filter (told c) (sent e)) + answers c h' end.

Definition seen (k : key) (newer base : list entry) : Prop :=
  exists a b, newer = a ++ b /\ present (contents_of (b ++ base)) k.

Definition about (c : sock) (e : entry) : Prop :=
  match ev e with Connect c' | Hangup c' | Request c' _ _ => c' = c end.

(** [c] has asked to wait, has since neither sent anything nor hung up, and some
    key it asked for has not been seen. *)
Definition unanswered (c : sock) (h : list entry) : Prop :=
  exists newer ks dead out older k,
    h = newer ++ mkEntry (Request c (Wait ks) dead) Done out :: older /\
    Forall (fun e => ~ about c e) newer /\
    In k ks /\ ~ seen k newer (mkEntry (Request c (Wait ks) dead) Done out :: older).

Definition creates (m : contents) (r : request) : Prop :=
  match r with CompareSet k e _ => m k = None /\ e = [] | _ => False end.

(** Clients send nothing while their wait is unanswered. *)
Fixpoint patient (h : list entry) : Prop :=
  match h with
  | [] => True
  | e :: h' => patient h' /\ match ev e with Request c _ _ => ~ unanswered c h' | _ => True end
  end.
(** No send failed. *)
Definition reliable (h : list entry) : Prop := Forall (fun e => res e <> SendFailed) h.
(** No [compare_set] created a key. *)
Fixpoint plain (h : list entry) : Prop :=
  match h with
  | [] => True
  | e :: h' => plain h' /\ match ev e with Request _ r _ => ~ creates (contents_of h') r | _ => True end
  end.
Definition orderly (h : list entry) : Prop := patient h /\ reliable h /\ plain h.

(** ** Proofs *)
Definition gone (m : contents) (k : key) : bool := match m k with None => true | Some _ => false end.

Fixpoint pending (c : sock) (h : list entry) : list key :=
  match h with
  | [] => []
  | e :: h' =>
      match ev e with
      | Connect c' | Hangup c' => if c' =? c then [] else pending c h'
      | Request c' r _ =>
          if c' =? c then
            match r, res e with
            | Wait ks, Done => filter (gone (contents_of h')) ks
            | _, _ => []
            end
          else filter (gone (contents_of (e :: h'))) (pending c h')
      end
  end.

(** Computed version of [orderly]. *)
Fixpoint tidy (h : list entry) : Prop :=
  match h with
  | [] => True
  | e :: h' =>
      tidy h' /\ res e <> SendFailed /\
      match ev e with
      | Request c r _ => pending c h' = [] /\ ~ creates (contents_of h') r
      | _ => True
      end
  end.

Lemma stops_answers c e : List.length (filter (told c) (sent e)) = stops c (sent e).
Proof. reflexivity. Qed.

Lemma serves_handle dead c r s o s' o' P : J s P ->
  (match r with Wait _ => False | _ => True end) -> ~ creates (find (store s)) r ->
  handle dead c r (s, o) = ((s', o'), Done) ->
  opened s' = opened s /\ exists new, o' = new ++ o /\ J s' (after s' P) /\
    forall c, stops c new = b2n (negb (nilb (P c)) && nilb (after s' P c)).
Proof.
  intros HJ NW NC E. destruct r; cbn [handle] in E; try destruct NW.
  - exact (serves_do_set _ _ _ _ _ _ _ _ HJ E).
  - refine (serves_compare_set _ _ _ _ _ _ _ _ _ _ HJ _ E). intros ->.
    destruct (find (store s) k) as [x|] eqn:F; [eauto|]. elim NC. split; auto.
  - exact (calm_serves _ (calm_get _ _ _) _ _ _ _ _ HJ E).
  - exact (serves_add _ _ _ _ _ _ _ _ _ HJ E).
  - refine (calm_serves _ _ _ _ _ _ _ HJ E). apply calm_with. intros; apply calm_send; discriminate.
  - refine (calm_serves _ _ _ _ _ _ _ HJ E). apply calm_with. intros; apply calm_send; discriminate.
  - exact (calm_serves _ (calm_watch _ _ _) _ _ _ _ _ HJ E).
  - exact (calm_serves _ (calm_delete _ _ _) _ _ _ _ _ HJ E).
  - exact (serves_append _ _ _ _ _ _ _ _ HJ E).
  - exact (calm_serves _ (calm_multi_get _ _ _) _ _ _ _ _ HJ E).
  - exact (proj1 (serves_multi_set _ _) _ _ _ _ _ HJ E).
Qed.

Lemma check_keys_absent s ks : check_keys s ks = nilb (filter (absent s) ks).
Proof.
  unfold check_keys. induction ks as [|k ks IH]; auto. cbn [forallb filter]. unfold absent at 1.
  destruct (find (store s) k); cbn [andb]; auto.
Qed.

Lemma filter_ext_eq {A} (f g : A -> bool) l : (forall x, f x = g x) -> filter f l = filter g l.
Proof. intros H. induction l as [|x l IH]; auto. cbn [filter]. now rewrite H, IH. Qed.

Lemma gone_absent s m k : (forall k, find (store s) k = m k) -> gone m k = absent s k.
Proof. intros H. unfold gone, absent. now rewrite H. Qed.

(** What one event does for each waiting client. *)
Definition due (c : sock) (e : entry) (h : list entry) : bool :=
  match ev e with
  | Request c' r _ =>
      if c' =? c then match r, res e with Wait ks, Done => nilb (filter (gone (contents_of h)) ks) | _, _ => false end
      else negb (nilb (pending c h)) && nilb (pending c (e :: h))
  | _ => false
  end.

Lemma invariant s h : reach s h -> tidy h ->
  J s (fun c => pending c h) /\ (forall k, find (store s) k = contents_of h k) /\
  match h with [] => True | e :: h' => forall c, stops c (sent e) = b2n (due c e h') end.
Proof.
  induction 1 as [|s h e s' x R IH P ST]; intros T.
  - split; [|split; auto]. constructor; try (cbn; intros; reflexivity); [constructor|cbn; congruence].
  - destruct T as (T & NF & PO). destruct (IH T) as (HJ & EQ & _). clear IH.
    destruct e as [c|c|c r dead]; cbn [step] in ST.
    + inversion ST; subst. cbn [contents_of ev res sent].
      split; [|split; auto]. destruct HJ as [H1 H2 H3 H4 H5].
      assert (PE : forall c', pending c' (mkEntry (Connect c) Done [] :: h) = pending c' h).
      { intros c'. cbn [pending ev]. destruct (Nat.eqb_spec c c') as [<-|]; auto.
        destruct (pending c h) eqn:E; auto. elim P. apply H4. rewrite E. discriminate. }
      apply (J_ext _ (fun c => pending c h)); [intros; now rewrite PE|]. constructor; auto.
      intros c' N. cbn [opened set_opened]. right. auto.
    + inversion ST; subst. cbn [contents_of ev res sent]. split; [|split; auto].
      apply (J_ext _ (upd_at (fun c => pending c h) c [])); [|now apply J_close]. intros c'. reflexivity.
    + destruct (explain s h R) as (ND & _).
      destruct (handle dead c r (s, [])) as [[s1 o1] st] eqn:E.
      destruct (correct_handle dead c r _ _ _ _ _ (contents_of h) ND EQ E) as (ND1 & new0 & O & H). rewrite app_nil_r in O. subst new0.
      destruct st; inversion ST; subst; [| |cbn [res] in NF; congruence]; cbn [ev res] in PO; destruct PO as [PC NC].
      * destruct H as [EQ1 _].
        assert (EX : forall k, find (store s') k = contents_of (mkEntry (Request c r dead) Done (rev o1) :: h) k) by exact EQ1.
        assert (WCASE : (exists ks, r = Wait ks) \/ match r with Wait _ => False | _ => True end) by (destruct r; eauto).
        destruct WCASE as [(ks & ->)|NW].
        -- cbn [handle] in E. unfold wait, with_st in E. cbn [fst] in E. rewrite check_keys_absent in E.
           assert (FA : filter (absent s) ks = filter (gone (contents_of h)) ks)
             by (apply filter_ext_eq; intros; symmetry; now apply gone_absent).
           assert (FP : forall c', filter (gone (contents_of h)) (pending c' h) = pending c' h).
           { intros c'. rewrite (filter_ext_eq _ (absent s)) by (intros; now apply gone_absent).
             exact (after_same s s (fun c => pending c h) HJ (fun k H => H) c'). }
           destruct (nilb (filter (absent s) ks)) eqn:NB.
           ++ apply send_run in E. destruct E as (-> & [(_ & ->)|(X & _)]); [|discriminate].
              split; [|split; auto].
              ** apply (J_ext _ (fun c => pending c h)); auto. intros c'. cbn [pending ev res]. destruct (Nat.eqb_spec c c') as [<-|].
                 --- rewrite <- FA. destruct (filter (absent s) ks); [auto|discriminate].
                 --- cbn [contents_of ev res next]. now rewrite FP.
              ** intros c'. cbn [sent rev app]. rewrite stops_cons. unfold is_stop. cbn [fst snd].
                 cbn [due ev res]. rewrite <- FA, NB. rewrite andb_true_r.
                 destruct (Nat.eqb_spec c c') as [<-|]; [reflexivity|]. cbn [pending ev res].
                 destruct (Nat.eqb_spec c c'); [congruence|]. cbn [contents_of ev res next]. rewrite FP, b2n_same. reflexivity.
           ++ apply upd_run in E. destruct E as (-> & -> & _).
              assert (JW := J_wait c ks s (fun c => pending c h)). destruct (enlist c ks 0 s) as [s2 n].
              assert (OP : In c (opened s)) by exact P.
              specialize (JW s2 n HJ OP PC eq_refl).
              split; [|split; auto].
              ** refine (J_ext _ _ _ _ JW). intros c'. unfold upd_at. cbn [pending ev res]. rewrite FA.
                 destruct (c =? c'); [reflexivity|]. cbn [contents_of ev res next]. symmetry. apply FP.
              ** intros c'. cbn [sent rev]. cbn [due ev res]. rewrite <- FA, NB. destruct (Nat.eqb_spec c c') as [<-|]; auto.
                 cbn [pending ev res]. destruct (Nat.eqb_spec c c'); [congruence|]. cbn [contents_of ev res next]. rewrite FP, b2n_same. reflexivity.
        -- assert (NC' : ~ creates (find (store s)) r).
           { intros X. apply NC. destruct r; try destruct X as [X1 X2]; cbn [creates] in *; auto. rewrite <- EQ. auto. }
           destruct (serves_handle dead c r _ _ _ _ _ HJ NW NC' E) as (OP & new & O & J1 & N1). rewrite app_nil_r in O. subst new.
           assert (PE : forall c', after s' (fun c => pending c h) c' = pending c' (mkEntry (Request c r dead) Done (rev o1) :: h)).
           { intros c'. cbn [pending ev res]. destruct (Nat.eqb_spec c c') as [<-|].
             - unfold after. rewrite PC. destruct r; auto. destruct NW.
             - unfold after. apply filter_ext_eq. intros k. symmetry. apply gone_absent. exact EX. }
           split; [|split; auto].
           ++ exact (J_ext _ _ _ PE J1).
           ++ intros c'. cbn [sent]. rewrite stops_rev, N1, PE. cbn [due ev res].
              destruct (Nat.eqb_spec c c') as [<-|]; auto. rewrite PC. destruct r; try reflexivity. destruct NW.
      * destruct (refused_unchanged dead c r s [] s1 o1 ND E) as (-> & new & O & N). rewrite app_nil_r in O. subst new.
        assert (FP : forall c', filter (gone (contents_of h)) (pending c' h) = pending c' h).
        { intros c'. rewrite (filter_ext_eq _ (absent s)) by (intros; now apply gone_absent).
          exact (after_same s s (fun c => pending c h) HJ (fun k H => H) c'). }
        split; [|split; auto].
        -- apply (J_ext _ (upd_at (fun c => pending c h) c [])); [|now apply J_close]. intros c'. unfold upd_at.
           cbn [pending ev res]. destruct (c =? c'); [now destruct r|]. cbn [contents_of ev res]. now rewrite FP.
        -- intros c'. cbn [sent]. rewrite stops_rev, N. cbn [due ev res]. destruct (Nat.eqb_spec c c') as [<-|NE]; [now destruct r|].
           cbn [pending ev res]. destruct (Nat.eqb_spec c c'); [congruence|]. cbn [contents_of ev res]. rewrite FP, b2n_same. reflexivity.
Qed.

(** [pending] in terms of [seen]. *)
Lemma gone_spec m k : gone m k = true <-> ~ present m k.
Proof. unfold gone, present. destruct (m k); split; intros H; auto; [discriminate|elim H; eauto|intros (v & V); discriminate]. Qed.

Lemma seen_cons k e newer base : seen k (e :: newer) base <-> present (contents_of (e :: newer ++ base)) k \/ seen k newer base.
Proof.
  split.
  - intros (a & b & E & PR). destruct a as [|x a]; cbn [app] in E.
    + subst b. left. exact PR.
    + inversion E; subst. right. exists a, b. auto.
  - intros [PR|(a & b & -> & PR)].
    + exists [], (e :: newer). auto.
    + exists (e :: a), b. auto.
Qed.

Lemma pending_seen c ks dead out older newer : Forall (fun e => ~ about c e) newer ->
  let base := mkEntry (Request c (Wait ks) dead) Done out :: older in
  forall k, In k (pending c (newer ++ base)) <-> In k ks /\ ~ seen k newer base.
Proof.
  intros F base. induction F as [|e newer NA F IH]; intros k.
  - cbn [app]. unfold base at 1. cbn [pending ev res]. rewrite Nat.eqb_refl, filter_In, gone_spec.
    assert (S0 : seen k [] base <-> present (contents_of older) k).
    { split.
      - intros (a & b & E & PR). symmetry in E. apply app_eq_nil in E. destruct E as [-> ->]. exact PR.
      - intros PR. exists [], []. auto. }
    rewrite S0. tauto.
  - rewrite seen_cons. assert (CN : ev e = Connect c \/ True) by auto.
    destruct e as [e st out']. unfold about in NA. cbn [ev] in NA. cbn [app pending ev].
    destruct e as [c'|c'|c' r d].
    + destruct (Nat.eqb_spec c' c); [contradiction|]. rewrite IH.
      assert (PB : present (contents_of (mkEntry (Connect c') st out' :: newer ++ base)) k -> seen k newer base).
      { intros X. exists [], newer. auto. }
      tauto.
    + destruct (Nat.eqb_spec c' c); [contradiction|]. rewrite IH.
      assert (PB : present (contents_of (mkEntry (Hangup c') st out' :: newer ++ base)) k -> seen k newer base).
      { intros X. exists [], newer. auto. }
      tauto.
    + destruct (Nat.eqb_spec c' c); [contradiction|]. rewrite filter_In, IH, gone_spec. tauto.
Qed.

Lemma pending_find c h k : In k (pending c h) -> unanswered c h.
Proof.
  induction h as [|e h IH]; intros I; [destruct I|].
  assert (EXT : ~ about c e -> In k (pending c h) -> ~ present (contents_of (e :: h)) k -> unanswered c (e :: h)).
  { intros NA I0 NP. destruct (IH I0) as (newer & ks & dead & out & older & k0 & -> & F & _ & _).
    assert (PS := pending_seen c ks dead out older newer F k). cbv zeta in PS. apply PS in I0. destruct I0 as [I1 I2].
    exists (e :: newer), ks, dead, out, older, k. split; auto. split; [constructor; auto|]. split; auto.
    rewrite seen_cons. tauto. }
  assert (EXT' : ~ about c e -> In k (pending c h) -> contents_of (e :: h) = contents_of h -> unanswered c (e :: h)).
  { intros NA I0 CE. apply EXT; auto. rewrite CE.
    destruct (IH I0) as (newer & ks & dead & out & older & k0 & -> & F & _ & _).
    assert (PS := pending_seen c ks dead out older newer F k). cbv zeta in PS. apply PS in I0. destruct I0 as [I1 I2].
    intros PR. apply I2. exists [], newer. auto. }
  destruct e as [e st out]. cbn [pending ev] in I. destruct e as [c'|c'|c' r d].
  - destruct (Nat.eqb_spec c' c); [destruct I|]. apply EXT'; auto.
  - destruct (Nat.eqb_spec c' c); [destruct I|]. apply EXT'; auto.
  - destruct (Nat.eqb_spec c' c) as [->|N].
    + destruct r; try destruct I. destruct st; try destruct I.
      exists [], ks, d, out, h, k. split; auto. split; [constructor|].
      assert (PS := pending_seen c ks d out h [] (Forall_nil _) k). cbv zeta in PS. apply PS. cbn [app pending ev res].
      rewrite Nat.eqb_refl. exact I.
    + apply filter_In in I. destruct I as [I G]. apply gone_spec in G. apply EXT; auto.
Qed.

Lemma pending_unanswered c h : unanswered c h <-> pending c h <> [].
Proof.
  split.
  - intros (newer & ks & dead & out & older & k & -> & F & I1 & I2) E.
    assert (PS := pending_seen c ks dead out older newer F k). cbv zeta in PS. rewrite E in PS. apply PS. auto.
  - intros N. destruct (pending c h) as [|k l] eqn:E; [congruence|]. apply (pending_find c h k). rewrite E. cbn. auto.
Qed.

Lemma orderly_tidy h : orderly h -> tidy h.
Proof.
  induction h as [|e h IH]; intros O; [exact I|]. destruct O as (O1 & O2 & O3). destruct O1 as (O1 & H1).
  inversion O2 as [|? ? NF O2']; subst. destruct O3 as (O3 & H3).
  split; [apply IH; repeat split; auto|]. split; auto.
  destruct (ev e) as [c|c|c r d]; auto. split; auto.
  destruct (pending c h) as [|k l] eqn:E; auto. elim H1. apply pending_unanswered. rewrite E. discriminate.
Qed.

Fixpoint patientp (h : list entry) : Prop :=
  match h with
  | [] => True
  | e :: h' => patientp h' /\ match ev e with Request c _ _ => pending c h' = [] | _ => True end
  end.
Lemma patientp_ok h : patientp h -> patient h.
Proof.
  induction h as [|e h IH]; intros P; [exact I|]. destruct P as (P & H). split; auto.
  destruct (ev e); auto. rewrite pending_unanswered. congruence.
Qed.

Lemma seen_all c ks dead out older newer : Forall (fun e => ~ about c e) newer ->
  let base := mkEntry (Request c (Wait ks) dead) Done out :: older in
  (pending c (newer ++ base) = [] -> forall k, In k ks -> ~ ~ seen k newer base) /\
  ((forall k, In k ks -> seen k newer base) -> pending c (newer ++ base) = []).
Proof.
  intros F base. assert (PS := pending_seen c ks dead out older newer F). fold base in PS. cbv zeta in PS. split.
  - intros E k I N. assert (X : In k (pending c (newer ++ base))) by (apply PS; auto). rewrite E in X. destruct X.
  - intros H. destruct (pending c (newer ++ base)) as [|k l] eqn:E; auto.
    assert (X : In k ks /\ ~ seen k newer base) by (apply PS; cbn; auto). destruct X as [X1 X2]. elim X2. auto.
Qed.

Lemma answers_app c a b : answers c (a ++ b) = answers c a + answers c b.
Proof. induction a as [|e a IH]; auto. cbn [app answers]. rewrite IH. lia. Qed.

Lemma reach_older s a b : reach s (a ++ b) -> exists s', reach s' b.
Proof.
  remember (a ++ b) as h. intros R. revert a Heqh. induction R as [|s h e s' x R IH P ST]; intros a E.
  - symmetry in E. apply app_eq_nil in E. destruct E as [-> ->]. exists init. constructor.
  - destruct a as [|y a]; cbn [app] in E.
    + subst b. exists s'. econstructor; eauto.
    + inversion E; subst. eauto.
Qed.
Lemma tidy_older a b : tidy (a ++ b) -> tidy b.
Proof. induction a as [|e a IH]; auto. cbn [app]. intros (T & _). auto. Qed.

Lemma answers_pending c ks dead out older newer s :
  let base := mkEntry (Request c (Wait ks) dead) Done out :: older in
  reach s (newer ++ base) -> tidy (newer ++ base) -> Forall (fun e => ~ about c e) newer ->
  answers c (newer ++ [mkEntry (Request c (Wait ks) dead) Done out]) = b2n (nilb (pending c (newer ++ base))).
Proof.
  intros base R T F. revert s R T. induction F as [|e newer NA F IH]; intros s R T.
  - cbn [app answers] in *. destruct (invariant _ _ R T) as (_ & _ & H). unfold base in H. specialize (H c).
    rewrite stops_answers, H. cbn [due ev res pending]. unfold base. cbn [pending ev res]. rewrite Nat.eqb_refl. lia.
  - cbn [app answers] in *. destruct (reach_older s [e] (newer ++ base) R) as (s' & R').
    rewrite (IH s' R' (proj1 T)). destruct (invariant _ _ R T) as (_ & _ & H). specialize (H c).
    rewrite stops_answers, H. destruct e as [e st out']. unfold about in NA. cbn [ev] in NA. cbn [due ev].
    set (h := newer ++ base) in *. clearbody h. cbn [pending ev].
    destruct e as [c'|c'|c' r d]; destruct (Nat.eqb_spec c' c); try contradiction; auto.
    unfold due. cbn [ev pending]. destruct (Nat.eqb_spec c' c); [contradiction|].
    destruct (pending c h) eqn:E; cbn [nilb negb andb b2n]; [reflexivity|lia].
Qed.

(** Decidability: whether all keys have been seen can be read off the history. *)
Lemma seen_dec k newer base : seen k newer base \/ ~ seen k newer base.
Proof.
  induction newer as [|e newer IH].
  - destruct (gone (contents_of base) k) eqn:G.
    + right. apply gone_spec in G. intros (a & b & E & PR). symmetry in E. apply app_eq_nil in E. destruct E as [-> ->]. auto.
    + left. exists [], []. split; auto. unfold gone, present in *. cbn [app]. destruct (contents_of base k); [eauto|discriminate].
  - rewrite seen_cons. destruct IH as [IH|IH]; [tauto|].
    destruct (gone (contents_of (e :: newer ++ base)) k) eqn:G.
    + apply gone_spec in G. tauto.
    + left. left. unfold gone, present in *. destruct (contents_of (e :: newer ++ base) k); [eauto|discriminate].
Qed.

(** ** The property *)

(** The contents of the store are those of the plain map. *)
Theorem C37_contents_partial s h : reach s h -> orderly h -> explained h (contents_of h).
Proof.
  induction 1 as [|s h e s' x R IH P ST]; intros O; [constructor|].
  assert (NF : res x <> SendFailed) by (apply orderly_tidy in O; apply O).
  assert (O' : orderly h).
  { destruct O as (O1 & O2 & O3). inversion O2; subst. split; [apply O1|]. split; auto. apply O3. }
  clear O. rename O' into O. specialize (IH O).
  destruct (invariant s h R (orderly_tidy h O)) as (_ & EQ & _). destruct (explain s h R) as (ND & _).
  destruct e as [c|c|c r dead]; cbn [step] in ST.
  - inversion ST; subst. now constructor.
  - inversion ST; subst. now constructor.
  - destruct (handle dead c r (s, [])) as [[s1 o1] st] eqn:E.
    destruct (correct_handle dead c r _ _ _ _ _ (contents_of h) ND EQ E) as (ND1 & new0 & OO & H). rewrite app_nil_r in OO. subst new0.
    destruct st; inversion ST; subst; [| |cbn [res] in NF; congruence].
    + destruct H as [_ H]. cbn [contents_of ev res]. now constructor.
    + destruct H as [_ H]. cbn [contents_of ev res]. now constructor.
Qed.

(** A client that asked to wait for [ks], and has been silent since, has been
    told to stop waiting exactly once if every key of [ks] has been present at
    some moment since it asked, and never otherwise. *)
Definition C37_claim (ok : list entry -> Prop) : Prop :=
  forall s c ks dead out older newer,
  let ask := mkEntry (Request c (Wait ks) dead) Done out in
  reach s (newer ++ ask :: older) -> ok (newer ++ ask :: older) ->
  Forall (fun e => ~ about c e) newer ->
  ((forall k, In k ks -> seen k newer (ask :: older)) -> answers c (newer ++ [ask]) = 1) /\
  (~ (forall k, In k ks -> seen k newer (ask :: older)) -> answers c (newer ++ [ask]) = 0).

Theorem C37_waits_are_answered_partial : C37_claim orderly.
Proof.
  intros s c ks dead out older newer ask R O F. apply orderly_tidy in O.
  assert (A := answers_pending c ks dead out older newer s R O F). fold ask in A. rewrite A.
  destruct (seen_all c ks dead out older newer F) as [S1 S2]. fold ask in S1, S2. split; intros H.
  - rewrite S2 by auto. reflexivity.
  - destruct (pending c (newer ++ ask :: older)) eqn:E; auto. elim H. intros k I.
    destruct (seen_dec k newer (ask :: older)); auto. elim (S1 eq_refl k I). auto.
Qed.

(** Nobody else is ever told to stop waiting: a message to stop is sent either
    in answer to a wait that needs not wait, or to a client whose wait is open. *)
Theorem C37_no_stray_answer_partial s e h c : reach s (e :: h) -> orderly (e :: h) -> answers c [e] <> 0 ->
  unanswered c h \/ exists ks dead, ev e = Request c (Wait ks) dead.
Proof.
  intros R O N. apply orderly_tidy in O. destruct (invariant _ _ R O) as (_ & _ & H). specialize (H c).
  cbn [answers] in N. rewrite stops_answers, H in N. unfold due in N. destruct (ev e) as [c'|c'|c' r d] eqn:EV; try (elim N; reflexivity).
  destruct (Nat.eqb_spec c' c) as [->|NE].
  - right. destruct r; try (elim N; reflexivity). eauto.
  - left. destruct (pending c h) as [|k l] eqn:E; [elim N; reflexivity|]. apply (pending_find c h k). rewrite E. cbn. auto.
Qed.

(** ** Non-vacuity and refutations *)
Module WaitDemo.
  Import Demo.
  Ltac concrete es := apply (run_reach es init []); [constructor|vm_compute; intuition discriminate].

  (** 6 waits for 1 and 2; 2 is set, then 1 (after a deletion of 2): it is answered then. *)
  Definition es : list event :=
    [ Connect 5; Connect 6; Request 6 (Wait [1; 2; 1]) []; Request 5 (Set_ 2 (lit "v")) [];
      Request 5 (DeleteKey 2) []; Request 5 (Add 1 3) [] ].
  Definition h (es : list event) := snd (run init [] es).
  Definition blank := mkEntry (Connect 0) Done [].
  Definition ask n es := nth n (h es) blank.
  Definition newer n es := firstn n (h es).
  Definition older n es := skipn (S n) (h es).

  Ltac pat := apply patientp_ok; vm_compute; intuition discriminate.
  Ltac rel := vm_compute; repeat constructor; discriminate.
  Ltac pla := vm_compute; intuition discriminate.
  Ltac fin := vm_compute; repeat constructor; discriminate.

  Example demo : h es = newer 3 es ++ ask 3 es :: older 3 es /\
    ask 3 es = mkEntry (Request 6 (Wait [1; 2; 1]) []) Done [] /\ reach (fst (run init [] es)) (h es) /\ orderly (h es) /\
    Forall (fun e => ~ about 6 e) (newer 3 es) /\ (forall k, In k [1; 2; 1] -> seen k (newer 3 es) (ask 3 es :: older 3 es)) /\
    answers 6 (newer 3 es ++ [ask 3 es]) = 1 /\
    sent (nth 0 (h es) blank) = [(5, MValue 3); (6, MStop)].
  Proof.
    split; [reflexivity|]. split; [reflexivity|]. split; [concrete es|]. split; [|split; [|split; [|split]]]; try reflexivity.
    - split; [pat|]. split; [rel|pla].
    - fin.
    - intros k I. cbn [In] in I. destruct I as [<-|[<-|[<-|[]]]].
      + eexists [], _. split; [reflexivity|]. eexists. vm_compute. reflexivity.
      + exists (firstn 2 (newer 3 es)), (skipn 2 (newer 3 es)). split; [reflexivity|]. eexists. vm_compute. reflexivity.
      + eexists [], _. split; [reflexivity|]. eexists. vm_compute. reflexivity.
  Qed.
  (** The same history a step earlier: not yet answered, because 1 has not been present. *)
  Definition es' := firstn 5 es.
  Example demo_not_yet : h es' = newer 2 es' ++ ask 2 es' :: older 2 es' /\
    reach (fst (run init [] es')) (h es') /\ orderly (h es') /\ Forall (fun e => ~ about 6 e) (newer 2 es') /\
    ~ seen 1 (newer 2 es') (ask 2 es' :: older 2 es') /\ answers 6 (newer 2 es' ++ [ask 2 es']) = 0.
  Proof.
    split; [reflexivity|]. split; [concrete es'|]. split; [|split; [|split]]; try reflexivity.
    - split; [pat|]. split; [rel|pla].
    - fin.
    - intros S. assert (PS := pending_seen 6 [1; 2; 1] [] [] (older 2 es') (newer 2 es')). cbv zeta in PS.
      assert (F : Forall (fun e => ~ about 6 e) (newer 2 es')) by fin. specialize (PS F 1).
      assert (X : In 1 (pending 6 (newer 2 es' ++ mkEntry (Request 6 (Wait [1; 2; 1]) []) Done [] :: older 2 es'))) by (vm_compute; auto).
      apply PS in X. destruct X as [_ X]. apply X. exact S.
  Qed.

  (** A [compare_set] that creates the key. *)
  Definition es1 : list event :=
    [ Connect 5; Connect 6; Request 6 (Wait [1]) []; Request 5 (CompareSet 1 [] (lit "v")) [] ].
  (** 4 has gone; the server finds out when waking it, and does not wake 6. *)
  Definition es2 : list event :=
    [ Connect 4; Connect 5; Connect 6; Request 4 (Wait [1]) []; Request 6 (Wait [1]) []; Request 5 (Set_ 1 (lit "v")) [4] ].
  (** 6 waits for 1 and 2.  Setting 1 fails at the dead 4 after 6 was counted
      down; 8 sets 1 again, and 6 is counted down again: woken without 2. *)
  Definition es3 : list event :=
    [ Connect 4; Connect 5; Connect 6; Connect 8; Request 6 (Wait [1; 2]) []; Request 4 (Wait [1]) [];
      Request 5 (Set_ 1 (lit "v")) [4]; Request 8 (Set_ 1 (lit "v")) [] ].
  (** 6 gives up waiting for 1 (time-out) and waits for 2: setting 1 wakes it. *)
  Definition es4 : list event :=
    [ Connect 5; Connect 6; Request 6 (Wait [1]) []; Request 6 (Wait [2]) []; Request 5 (Set_ 1 (lit "v")) [] ].
End WaitDemo.

(** A client is not woken when a [compare_set] creates the key: it hangs. *)
Theorem C37_compare_set_refuted : ~ C37_claim (fun h => patient h /\ reliable h).
Proof.
  intros C. specialize (C (fst (Demo.run init [] WaitDemo.es1)) 6 [1] [] [] (WaitDemo.older 1 WaitDemo.es1) (WaitDemo.newer 1 WaitDemo.es1)). cbv zeta in C.
  destruct C as [C _].
  - WaitDemo.concrete WaitDemo.es1.
  - split; [WaitDemo.pat|WaitDemo.rel].
  - WaitDemo.fin.
  - assert (X : answers 6 (WaitDemo.newer 1 WaitDemo.es1 ++ [mkEntry (Request 6 (Wait [1]) []) Done []]) = 0) by reflexivity.
    rewrite X in C. discriminate C. intros k [<-|[]]. eexists [], _. split; [reflexivity|]. eexists. vm_compute. reflexivity.
Qed.

(** A client is not woken when another waiting client has gone: it hangs. *)
Theorem C37_dead_waiter_refuted : exists s h,
  reach s h /\ patient h /\ plain h /\ exists newer older,
  let ask := mkEntry (Request 6 (Wait [1]) []) Done [] in
  h = newer ++ ask :: older /\ Forall (fun e => ~ about 6 e) newer /\
  find (store s) 1 = Some (lit "v") /\ answers 6 h = 0.
Proof.
  exists (fst (Demo.run init [] WaitDemo.es2)), (WaitDemo.h WaitDemo.es2).
  split; [WaitDemo.concrete WaitDemo.es2|]. split; [WaitDemo.pat|]. split; [WaitDemo.pla|].
  exists (WaitDemo.newer 1 WaitDemo.es2), (WaitDemo.older 1 WaitDemo.es2). cbv zeta.
  split; [reflexivity|]. split; [WaitDemo.fin|]. split; reflexivity.
Qed.

(** A client is woken though a key it waits for has never been set (two ways). *)
Theorem C37_early_after_failure_refuted : exists s h,
  reach s h /\ patient h /\ plain h /\
  (forall e, In e h -> match ev e with   (* only key 1 is ever written *)
                       | Request _ (Set_ k _) _ => k = 1
                       | Request _ (Wait _) _ | Connect _ => True
                       | _ => False
                       end) /\
  exists e h', h = e :: h' /\ answers 6 [e] = 1 /\
  In (mkEntry (Request 6 (Wait [1; 2]) []) Done []) h'.
Proof.
  exists (fst (Demo.run init [] WaitDemo.es3)), (WaitDemo.h WaitDemo.es3).
  split; [WaitDemo.concrete WaitDemo.es3|]. split; [WaitDemo.pat|]. split; [WaitDemo.pla|]. split.
  - intros e I. vm_compute in I. repeat (destruct I as [<-|I]; [vm_compute; auto|]). destruct I.
  - eexists _, _. split; [vm_compute; reflexivity|]. split; [reflexivity|]. vm_compute. intuition.
Qed.

Theorem C37_early_after_timeout_refuted : ~ C37_claim (fun h => reliable h /\ plain h).
Proof.
  intros C. specialize (C (fst (Demo.run init [] WaitDemo.es4)) 6 [2] [] [] (WaitDemo.older 1 WaitDemo.es4) (WaitDemo.newer 1 WaitDemo.es4)). cbv zeta in C.
  destruct C as [_ C].
  - WaitDemo.concrete WaitDemo.es4.
  - split; [WaitDemo.rel|WaitDemo.pla].
  - WaitDemo.fin.
  - assert (X : answers 6 (WaitDemo.newer 1 WaitDemo.es4 ++ [mkEntry (Request 6 (Wait [2]) []) Done []]) = 1) by reflexivity.
    rewrite X in C. discriminate C. intros S. assert (I : In 2 [2]) by (cbn; auto). specialize (S 2 I).
    assert (PS := pending_seen 6 [2] [] [] (WaitDemo.older 1 WaitDemo.es4) (WaitDemo.newer 1 WaitDemo.es4)). cbv zeta in PS.
    assert (F : Forall (fun e => ~ about 6 e) (WaitDemo.newer 1 WaitDemo.es4)) by WaitDemo.fin. specialize (PS F 2).
    assert (Y : In 2 (pending 6 (WaitDemo.newer 1 WaitDemo.es4 ++ mkEntry (Request 6 (Wait [2]) []) Done [] :: WaitDemo.older 1 WaitDemo.es4)))
      by (vm_compute; auto).
    apply PS in Y. destruct Y as [_ Y]. auto.
Qed.

Print Assumptions C37_contents_partial.
Print Assumptions C37_waits_are_answered_partial.
Print Assumptions C37_no_stray_answer_partial.
Print Assumptions C37_compare_set_refuted.
Print Assumptions C37_dead_waiter_refuted.
Print Assumptions C37_early_after_failure_refuted.
Print Assumptions C37_early_after_timeout_refuted.
