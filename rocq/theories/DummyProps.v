(** * C34: in-process channels are reliable FIFO queues

    How to read.  A history lists the operations on a channel pair with their outcomes,
    newest first: sends, receives (each by a task of its own), the runs of waiting
    receivers by the event loop, cancellations of them, and closes.  [sent e h]: the
    messages accepted at end [e]; [received e h]: the messages returned by receives at end
    [e], in the order of their return.  [waiting e t h]: the receive of task [t] at [e] was
    called and has neither returned nor been cancelled. *)
From Coq Require Import List Bool Arith Lia.
From Verif Require Import DummyModel.
Import ListNotations.

(** ** Specification *)
Definition history := list (op * outcome).
Fixpoint sent (e : bool) (h : history) : list msg :=
  match h with
  | [] => []
  | (Send e' m, Sent) :: h => if eqb e e' then sent e h ++ [m] else sent e h
  | _ :: h => sent e h
  end.
Fixpoint received (e : bool) (h : history) : list msg :=
  match h with
  | [] => []
  | (Recv e' _, Got m) :: h => if eqb e e' then received e h ++ [m] else received e h
  | (Resume e' _, Got m) :: h => if eqb e e' then received e h ++ [m] else received e h
  | _ :: h => received e h
  end.
Fixpoint waiting (e : bool) (t : task) (h : history) : Prop :=
  match h with
  | [] => False
  | (Recv e' t', Nothing) :: h => (e = e' /\ t = t') \/ waiting e t h
  | (Resume e' t', Got _) :: h => ~ (e = e' /\ t = t') /\ waiting e t h
  | (Cancel e' t', _) :: h => ~ (e = e' /\ t = t') /\ waiting e t h
  | _ :: h => waiting e t h
  end.
Definition was_closed (h : history) : Prop := exists r, In (Close, r) h.

(** ** Proofs *)
Lemma inq_set p e q e' : inq (set_inq p e q) e' = if eqb e e' then q else inq p e'.
Proof. destruct e, e'; reflexivity. Qed.
Lemma closed_set p e q : closed (set_inq p e q) = closed p.
Proof. destruct e; reflexivity. Qed.
Lemma wakeup_items q : items (wakeup_next q) = items q.
Proof. unfold wakeup_next. destruct (wakeup (getters q)). reflexivity. Qed.
Lemma put_items q m : items (put_nowait q m) = items q ++ [m].
Proof. unfold put_nowait. now rewrite wakeup_items. Qed.

Definition got (r : outcome) : list msg := match r with Got m => [m] | _ => [] end.
Lemma get_items q t q' r : get q t = (q', r) -> items q = got r ++ items q'.
Proof. unfold get. destruct (items q) eqn:E; intros X; inversion X; reflexivity. Qed.
Lemma resume_items q t q' r : resume q t = (q', r) -> items q = got r ++ items q'.
Proof.
  unfold resume. destruct (lookup t (ready q)) as [[|]|].
  - intros X; inversion X; subst. cbn [got app]. destruct (items q) eqn:E; [now rewrite <- E at 1|]. now rewrite wakeup_items.
  - intros X. apply get_items in X. exact X.
  - destruct (existsb _ _); intros X; inversion X; reflexivity.
Qed.
Lemma cancel_items q t : items (cancel q t) = items q.
Proof. unfold cancel. destruct (lookup t (ready q)); auto. destruct (lookup t (getters q)) as [[|]|]; auto. Qed.

Lemma eqb_negb e e' : eqb (negb e) e' = eqb e (negb e').
Proof. now destruct e, e'. Qed.

Lemma fifo p h : reach p h -> forall e, sent (negb e) h = received e h ++ items (inq p e).
Proof.
  induction 1 as [|p h o p' r R IH ST F]; intros e; [now destruct e|].
  destruct o as [e' m|e' t|e' t|e' t|]; cbn [step] in ST.
  - destruct (closed p); inversion ST; subst; cbn [sent received]; auto.
    rewrite inq_set. specialize (IH e). destruct e, e'; cbn [negb eqb inq] in *; rewrite ?put_items, ?app_assoc, ?IH; auto.
  - destruct (closed p); [inversion ST; subst; cbn [sent received]; auto|].
    destruct (get (inq p e') t) as [q r'] eqn:G. inversion ST; subst. apply get_items in G. rewrite inq_set.
    cbn [sent received]. rewrite IH. destruct (eqb e' e) eqn:EE.
    + apply eqb_prop in EE. subst. rewrite eqb_reflx, G. destruct r; cbn [got app]; auto. now rewrite <- app_assoc.
    + destruct r; auto. destruct e, e'; try discriminate; reflexivity.
  - destruct (resume (inq p e') t) as [q r'] eqn:G. inversion ST; subst. apply resume_items in G. rewrite inq_set.
    cbn [sent received]. rewrite IH. destruct (eqb e' e) eqn:EE.
    + apply eqb_prop in EE. subst. rewrite eqb_reflx, G. destruct r; cbn [got app]; auto. now rewrite <- app_assoc.
    + destruct r; auto. destruct e, e'; try discriminate; reflexivity.
  - inversion ST; subst. cbn [sent received]. rewrite inq_set, IH. destruct (eqb e' e) eqn:EE; auto.
    apply eqb_prop in EE. subst. now rewrite cancel_items.
  - inversion ST; subst. cbn [sent received]. rewrite IH. now destruct e.
Qed.

(** *** Waiting receivers *)
Lemma lookup_in t l b : lookup t l = Some b -> In (t, b) l.
Proof.
  induction l as [|[t' b'] l IH]; cbn; [discriminate|]. destruct (Nat.eqb_spec t' t) as [->|N]; auto. intros E; inversion E; auto.
Qed.
Lemma lookup_none t l : lookup t l = None <-> ~ In t (map fst l).
Proof.
  induction l as [|[t' b'] l IH]; cbn; [tauto|]. destruct (Nat.eqb_spec t' t) as [->|N].
  - split; [discriminate|]. intros X. elim X. auto.
  - rewrite IH. tauto.
Qed.
Lemma lookup_nodup t l b : NoDup (map fst l) -> In (t, b) l -> lookup t l = Some b.
Proof.
  induction l as [|[t' b'] l IH]; cbn [map fst lookup]; intros ND; [intros []|]. inversion ND as [|? ? NI ND']; subst. intros [E|I].
  - inversion E; subst. now rewrite Nat.eqb_refl.
  - destruct (Nat.eqb_spec t' t) as [->|N]; auto. elim NI. now apply (in_map fst) in I.
Qed.
Lemma drop_in t l x b : In (x, b) (drop t l) -> In (x, b) l.
Proof. induction l as [|[t' b'] l IH]; cbn; auto. destruct (t' =? t); cbn; tauto. Qed.
Lemma drop_keeps t l x b : x <> t -> In (x, b) l -> In (x, b) (drop t l).
Proof.
  intros N. induction l as [|[t' b'] l IH]; cbn; auto. destruct (Nat.eqb_spec t' t) as [->|N']; cbn; intros [E|I]; auto. congruence.
Qed.
Lemma drop_nodup t l : NoDup (map fst l) -> NoDup (map fst (drop t l)) /\ ~ In t (map fst (drop t l)).
Proof.
  induction l as [|[t' b'] l IH]; cbn [drop map fst]; intros ND; [split; auto|]. inversion ND as [|? ? NI ND']; subst.
  destruct (Nat.eqb_spec t' t) as [->|N]; [split; auto|]. destruct (IH ND') as [A B]. cbn [map fst]. split.
  - constructor; auto. intros I. apply NI. apply in_map_iff in I. destruct I as ([x b] & E & I). cbn in E. subst.
    apply drop_in in I. now apply (in_map fst) in I.
  - intros [E|I]; [congruence|auto].
Qed.
Lemma drop_length t l b : lookup t l = Some b -> length l = S (length (drop t l)).
Proof.
  induction l as [|[t' b'] l IH]; cbn [lookup drop]; [discriminate|]. destruct (Nat.eqb_spec t' t); auto. intros E. cbn. now rewrite IH.
Qed.
Lemma mark_fst t l : map fst (mark t l) = map fst l.
Proof. induction l as [|[t' b'] l IH]; auto. cbn. destruct (t' =? t); cbn; congruence. Qed.
Lemma mark_in t l x : In (x, false) (mark t l) -> In (x, false) l.
Proof. induction l as [|[t' b'] l IH]; cbn; auto. destruct (t' =? t); cbn; intros [E|I]; auto; congruence. Qed.
Lemma mark_keeps t l x : x <> t -> In (x, false) l -> In (x, false) (mark t l).
Proof. intros N. induction l as [|[t' b'] l IH]; cbn; auto. destruct (Nat.eqb_spec t' t); cbn; intros [E|I]; auto. congruence. Qed.

(** Both lists together *)
Definition tids (q : queue) : list task := map fst (getters q) ++ map fst (ready q).
Definition alive (q : queue) (t : task) : Prop := In (t, false) (getters q) \/ In (t, false) (ready q).
Definition served (q : queue) : Prop := forall t, In (t, false) (getters q) -> length (items q) <= length (ready q).

Lemma wakeup_spec gs : exists pre, match wakeup gs with
  | (gs', []) => gs' = [] /\ gs = pre /\ forall t, ~ In (t, false) gs
  | (gs', [(t, false)]) => gs = pre ++ (t, false) :: gs' /\ forall x, ~ In (x, false) pre
  | _ => False
  end.
Proof.
  induction gs as [|[t [|]] gs (pre & IH)]; cbn [wakeup].
  - exists []. auto.
  - exists ((t, true) :: pre). destruct (wakeup gs) as [gs' [|[t0 [|]] [|]]]; auto.
    + destruct IH as (-> & -> & N). repeat split; auto. intros x [E|I]; [discriminate|]. eapply N; eauto.
    + destruct IH as (-> & N). split; auto. intros x [E|I]; [discriminate|]. eapply N; eauto.
  - exists []. cbn. auto.
Qed.

Lemma nodup_perm_mid {A} (a b c : list A) x : NoDup ((a ++ x :: b) ++ c) -> NoDup (b ++ c ++ [x]).
Proof.
  intros N. rewrite <- app_assoc in N. cbn [app] in N.
  assert (N2 : NoDup (x :: b ++ c)).
  { clear -N. induction a as [|y a IH]; auto. inversion N; auto. }
  inversion N2; subst. rewrite app_assoc. clear -H1 H2.
  induction (b ++ c) as [|y l IH]; cbn; [constructor; auto|]. inversion H2; subst. constructor.
  - intros I. apply in_app_or in I. destruct I as [I|[->|[]]]; auto. apply H1. cbn; auto.
  - apply IH; auto. intros I. apply H1. cbn; auto.
Qed.

Lemma wakeup_next_ok q : NoDup (tids q) ->
  NoDup (tids (wakeup_next q)) /\ (forall t, alive q t -> alive (wakeup_next q) t) /\
  (forall t, In t (tids (wakeup_next q)) -> In t (tids q)) /\
  (forall t, In (t, false) (getters (wakeup_next q)) -> length (ready (wakeup_next q)) = S (length (ready q))) /\
  (forall t, In (t, false) (getters (wakeup_next q)) -> In (t, false) (getters q)).
Proof.
  intros ND. unfold wakeup_next. destruct (wakeup_spec (getters q)) as (pre & W).
  destruct (wakeup (getters q)) as [gs' [|[t0 [|]] [|]]] eqn:E; try contradiction.
  - destruct W as (-> & _ & N). unfold tids, alive in *. cbn [getters ready]. rewrite app_nil_r. cbn [map app].
    split; [|split; [|split; [|split]]].
    + apply (NoDup_app_remove_l _ _ ND) || (clear -ND; induction (map fst (getters q)); auto; inversion ND; auto).
    + intros t [A|A]; auto. elim (N t A).
    + intros t I. apply in_or_app. auto.
    + intros t [].
    + intros t [].
  - destruct W as [G N]. unfold tids, alive in *. cbn [getters ready]. rewrite G in *. rewrite map_app in ND. cbn [map fst] in ND.
    split; [|split; [|split; [|split]]].
    + rewrite map_app. cbn [map fst]. eapply nodup_perm_mid; eauto.
    + intros t [A|A].
      * apply in_app_or in A. destruct A as [A|[A|A]]; [elim (N t A)| |auto]. inversion A; subst. right. apply in_or_app. cbn. auto.
      * right. apply in_or_app. auto.
    + intros t I. rewrite map_app in *. cbn [map fst]. apply in_app_or in I. apply in_or_app.
      destruct I as [I|I]; [left; apply in_or_app; cbn; auto|]. apply in_app_or in I. destruct I as [I|[<-|[]]]; auto.
      left. apply in_or_app. cbn. auto.
    + intros t I. rewrite app_length. cbn. lia.
    + intros t I. apply in_or_app. cbn. auto.
Qed.

Lemma get_ok q t q' r : get q t = (q', r) -> NoDup (tids q) -> ~ In t (tids q) -> served q ->
  NoDup (tids q') /\ served q' /\ (forall x, alive q x -> alive q' x) /\
  (forall x, In x (tids q') -> In x (tids q) \/ x = t) /\ (r = Nothing -> alive q' t).
Proof.
  unfold get. intros G ND NI SV. destruct (items q) as [|m ms] eqn:E; inversion G; subst; clear G.
  - unfold tids, alive, served in *. cbn [getters ready items]. rewrite map_app. cbn [map fst]. split; [|split; [|split; [|split]]].
    + rewrite <- app_assoc. cbn [app]. apply NoDup_Add with (a := t) (l := map fst (getters q) ++ map fst (ready q)); [apply Add_app|auto].
    + intros x _. cbn. lia.
    + intros x [A|A]; auto. left. apply in_or_app. auto.
    + intros x I. apply in_app_or in I. destruct I as [I|I]; [|left; apply in_or_app; auto].
      apply in_app_or in I. destruct I as [I|[<-|[]]]; auto. left. apply in_or_app. auto.
    + intros _. left. apply in_or_app. cbn. auto.
  - unfold tids, alive, served in *. cbn [getters ready items]. rewrite E in SV. cbn [length] in SV. repeat split; auto; try discriminate.
    intros x A. specialize (SV x A). lia.
Qed.

Definition Good (q : queue) (h : history) (e : bool) : Prop :=
  NoDup (tids q) /\ served q /\
  (forall t, In t (tids q) \/ In t (dying q) -> exists r, In (Recv e t, r) h) /\
  (forall t, waiting e t h -> alive q t) /\
  (forall t, In t (dying q) -> ~ alive q t /\ ~ In t (map fst (ready q))).

Lemma ready_sub q (t : task) : NoDup (tids q) -> NoDup (map fst (ready q)).
Proof. unfold tids. generalize (map fst (getters q)). intros l. induction l; auto. cbn. intros N; inversion N; auto. Qed.

Lemma drop_ready q t b : NoDup (tids q) -> lookup t (ready q) = Some b ->
  let q' := mkQ (items q) (getters q) (drop t (ready q)) (dying q) in
  NoDup (tids q') /\ ~ In t (tids q') /\ (forall x, x <> t -> alive q x -> alive q' x) /\
  (forall x, In x (tids q') -> In x (tids q)).
Proof.
  intros ND L q'. assert (NR := ready_sub q t ND). destruct (drop_nodup t _ NR) as [A B].
  assert (IT : In t (map fst (ready q))) by (apply lookup_in in L; now apply (in_map fst) in L).
  unfold q', tids, alive in *. cbn [getters ready].
  assert (SUB : forall x, In x (map fst (drop t (ready q))) -> In x (map fst (ready q))).
  { intros x I. apply in_map_iff in I. destruct I as ([y b'] & <- & I). apply drop_in in I. now apply (in_map fst) in I. }
  assert (NG : ~ In t (map fst (getters q))).
  { clear -ND IT. induction (map fst (getters q)) as [|y l IH]; auto. cbn in ND. inversion ND; subst. intros [->|I]; [|eapply IH; eauto].
    apply H1. apply in_or_app. auto. }
  split; [|split; [|split]].
  - clear -ND A SUB. induction (map fst (getters q)) as [|y l IH]; auto. cbn in *. inversion ND; subst. constructor; auto.
    intros I. apply H1. apply in_app_or in I. apply in_or_app. destruct I; auto.
  - intros I. apply in_app_or in I. tauto.
  - intros x N [C|C]; auto. right. now apply drop_keeps.
  - intros x I. apply in_app_or in I. apply in_or_app. destruct I; auto.
Qed.

Lemma wakeup_dying q : dying (wakeup_next q) = dying q.
Proof. unfold wakeup_next. destruct (wakeup (getters q)). reflexivity. Qed.
Lemma wakeup_ready q t : In t (map fst (ready (wakeup_next q))) -> In t (map fst (ready q)) \/ In (t, false) (getters q).
Proof.
  unfold wakeup_next. destruct (wakeup_spec (getters q)) as (pre & W).
  destruct (wakeup (getters q)) as [gs' [|[t0 [|]] [|]]]; try contradiction; cbn [ready]; rewrite map_app; intros I;
    apply in_app_or in I; destruct I as [I|I]; auto.
  - destruct I.
  - cbn in I. destruct I as [<-|[]]. right. destruct W as [-> _]. apply in_or_app. cbn. auto.
Qed.
Lemma wakeup_alive q t : alive (wakeup_next q) t -> alive q t.
Proof.
  unfold wakeup_next, alive. destruct (wakeup_spec (getters q)) as (pre & W).
  destruct (wakeup (getters q)) as [gs' [|[t0 [|]] [|]]]; try contradiction; cbn [ready getters]; intros [A|A].
  - destruct W as [-> _]. destruct A.
  - rewrite app_nil_r in A. auto.
  - destruct W as [-> _]. left. apply in_or_app. cbn. auto.
  - apply in_app_or in A. destruct A as [A|[A|[]]]; auto. inversion A; subst. left. destruct W as [-> _]. apply in_or_app. cbn. auto.
Qed.

Lemma tids_split q t : NoDup (tids q) -> In t (map fst (getters q)) -> ~ In t (map fst (ready q)).
Proof.
  unfold tids. generalize (map fst (getters q)), (map fst (ready q)). intros a b. induction a as [|x a IH]; cbn; [tauto|].
  intros ND. inversion ND; subst. intros [->|I] J; [apply H1; apply in_or_app; auto|]. eapply IH; eauto.
Qed.
Lemma getters_nodup q : NoDup (tids q) -> NoDup (map fst (getters q)).
Proof.
  unfold tids. generalize (map fst (getters q)), (map fst (ready q)). intros a b. induction a as [|x a IH]; cbn; [constructor|].
  intros ND. inversion ND; subst. constructor; auto. intros I. apply H1. apply in_or_app; auto.
Qed.
Lemma nodup_both {A} (a b a' : list A) : NoDup (a ++ b) -> NoDup a' -> (forall x, In x a' -> In x a) -> NoDup (a' ++ b).
Proof.
  intros N N' S.
  assert (DJ : forall x, In x a -> ~ In x b).
  { clear -N. induction a as [|y a IH]; intros x; [intros []|]. cbn in N. inversion N; subst. intros [->|I]; auto.
    intros J. apply H1. apply in_or_app; auto. }
  assert (NB : NoDup b) by (clear -N; induction a; auto; cbn in N; inversion N; auto).
  induction a' as [|y a' IH]; auto. cbn. inversion N'; subst. constructor.
  - intros I. apply in_app_or in I. destruct I as [I|I]; auto. eapply DJ; [apply S; cbn; auto|auto].
  - apply IH; auto. intros x I. apply S. cbn. auto.
Qed.

Lemma drop_dying t l x : In x (drop_task t l) -> In x l.
Proof. induction l as [|y l IH]; cbn; auto. destruct (y =? t); cbn; tauto. Qed.

Lemma resume_ok q t q' r h e : resume q t = (q', r) -> Good q h e -> Good q' ((Resume e t, r) :: h) e.
Proof.
  intros RS (ND & SV & HX & WT & DY). unfold resume in RS.
  assert (HX' : forall x, In x (tids q) \/ In x (dying q) -> exists r', In (Recv e x, r') ((Resume e t, r) :: h)).
  { intros x I. destruct (HX x I) as (r' & I'). exists r'. right. auto. }
  destruct (lookup t (ready q)) as [[|]|] eqn:L.
  - destruct (drop_ready q t _ ND L) as (A & B & C & D). cbn zeta in *. set (q1 := mkQ (items q) (getters q) (drop t (ready q)) (dying q)) in *.
    inversion RS; subst; clear RS. assert (DL := drop_length _ _ _ L).
    assert (NTW : ~ waiting e t h).
    { intros W. apply WT in W. destruct W as [W|W].
      - apply B. unfold tids, q1. cbn [getters ready]. apply in_or_app. left. now apply (in_map fst) in W.
      - assert (X := lookup_nodup _ _ _ (ready_sub _ t ND) W). congruence. }
    assert (AL : forall x, alive q1 x -> alive q x).
    { intros x [Y|Y]; unfold q1 in Y; cbn [getters ready] in Y; [now left|right]. now apply drop_in in Y. }
    assert (RD : forall x, In x (map fst (ready q1)) -> In x (map fst (ready q))).
    { intros x I. unfold q1 in I. cbn [ready] in I. apply in_map_iff in I. destruct I as ([y b'] & <- & I). apply drop_in in I. now apply (in_map fst) in I. }
    destruct (items q) as [|m ms] eqn:EI.
    + split; [exact A|]. split; [intros x I; unfold q1; cbn; lia|]. split; [|split].
      * intros x I. apply HX'. destruct I as [I|I]; auto.
      * cbn [waiting]. intros x W. destruct (Nat.eq_dec x t) as [->|N]; [contradiction|]. apply C; auto.
      * intros x I. destruct (DY x I) as [Y1 Y2]. split; auto.
    + destruct (wakeup_next_ok q1 A) as (A1 & A2 & A3 & A4 & A5). split; [exact A1|]. split; [|split; [|split]].
      * intros x I. rewrite (A4 x I). rewrite wakeup_items. unfold q1. cbn [items ready]. specialize (SV x (A5 x I)). rewrite EI in SV. lia.
      * intros x I. apply HX'. rewrite wakeup_dying in I. destruct I as [I|I]; auto.
      * cbn [waiting]. intros x W. destruct (Nat.eq_dec x t) as [->|N]; [contradiction|]. apply A2. apply C; auto.
      * rewrite wakeup_dying. intros x I. destruct (DY x I) as [Y1 Y2]. split.
        -- intros Y. apply wakeup_alive in Y. auto.
        -- intros Y. apply wakeup_ready in Y. destruct Y as [Y|Y]; [auto|]. apply Y1. now left.
  - destruct (drop_ready q t _ ND L) as (A & B & C & D). cbn zeta in *. set (q1 := mkQ (items q) (getters q) (drop t (ready q)) (dying q)) in *.
    assert (DL := drop_length _ _ _ L).
    assert (IT : In t (map fst (ready q))) by (apply lookup_in in L; now apply (in_map fst) in L).
    assert (AL : forall x, alive q1 x -> alive q x).
    { intros x [Y|Y]; unfold q1 in Y; cbn [getters ready] in Y; [now left|right]. now apply drop_in in Y. }
    assert (RD : forall x, In x (map fst (ready q1)) -> In x (map fst (ready q))).
    { intros x I. unfold q1 in I. cbn [ready] in I. apply in_map_iff in I. destruct I as ([y b'] & <- & I). apply drop_in in I. now apply (in_map fst) in I. }
    unfold get in RS. cbn [items getters ready dying] in RS.
    destruct (items q) as [|m ms] eqn:EI; inversion RS; subst; clear RS.
    + unfold Good. cbn [dying]. split; [|split; [|split; [|split]]].
      * unfold tids. cbn [getters ready]. rewrite map_app, <- app_assoc. cbn [map fst app]. eapply NoDup_Add; [apply Add_app|]. split; auto.
      * intros x _. cbn. lia.
      * intros x I. apply HX'. destruct I as [I|I]; auto. unfold tids in I. cbn [getters ready] in I. rewrite map_app in I. cbn [map fst] in I.
        rewrite <- app_assoc in I. cbn [app] in I. apply in_app_or in I. left. cbn [In] in I.
        destruct I as [I|[<-|I]]; [apply D; unfold tids, q1; apply in_or_app; auto| |apply D; unfold tids, q1; apply in_or_app; auto].
        unfold tids. apply in_or_app. auto.
      * cbn [waiting]. unfold alive. cbn [getters ready]. intros x W. destruct (Nat.eq_dec x t) as [->|N]; [left; apply in_or_app; cbn; auto|].
        destruct (C x N (WT x W)) as [Y|Y]; [left; apply in_or_app|]; auto.
      * intros x I. destruct (DY x I) as [Y1 Y2]. split; [|auto]. unfold alive. cbn [getters ready]. intros [Y|Y].
        -- apply in_app_or in Y. destruct Y as [Y|[Y|[]]]; [apply Y1; now left|]. inversion Y; subst. contradiction.
        -- apply Y1. right. now apply drop_in in Y.
    + unfold Good. cbn [dying]. split; [exact A|]. split; [|split; [|split]].
      * intros x I. cbn [items ready getters] in *. specialize (SV x I). rewrite EI in SV. cbn [length] in SV. lia.
      * intros x I. apply HX'. destruct I as [I|I]; auto.
      * cbn [waiting]. intros x [NX W]. apply C; [|auto]. intros ->. apply NX. auto.
      * intros x I. destruct (DY x I) as [Y1 Y2]. split; [|auto]. intros Y. apply Y1. apply AL. exact Y.
  - destruct (existsb (Nat.eqb t) (dying q)) eqn:DT; inversion RS; subst; clear RS.
    + apply existsb_exists in DT. destruct DT as (z & Iz & Ez). apply Nat.eqb_eq in Ez. subst z.
      assert (SUB : forall x, In x (map fst (drop t (getters q))) -> In x (map fst (getters q))).
      { intros x I. apply in_map_iff in I. destruct I as ([y b'] & <- & I). apply drop_in in I. now apply (in_map fst) in I. }
      unfold Good. cbn [dying]. split; [|split; [|split; [|split]]].
      * unfold tids. cbn [getters ready]. eapply nodup_both; eauto. apply drop_nodup. now apply getters_nodup.
      * intros x I. cbn [getters ready items] in *. apply drop_in in I. apply (SV x I).
      * intros x I. apply HX'. destruct I as [I|I]; [left|right; now apply drop_dying in I].
        unfold tids in *. cbn [getters ready] in I. apply in_app_or in I. apply in_or_app. destruct I; auto.
      * cbn [waiting]. intros x W. assert (X := WT x W). destruct (Nat.eq_dec x t) as [->|N].
        -- exfalso. destruct (DY t Iz) as [Y1 _]. auto.
        -- destruct X as [Y|Y]; [left|right]; auto. now apply drop_keeps.
      * intros x I. apply drop_dying in I. destruct (DY x I) as [Y1 Y2]. split; auto. intros [Y|Y]; apply Y1; [left|right]; auto.
        now apply drop_in in Y.
    + split; [auto|]. split; auto.
Qed.

Lemma cancel_ok q t r h e : Good q h e -> Good (cancel q t) ((Cancel e t, r) :: h) e.
Proof.
  intros (ND & SV & HX & WT & DY).
  assert (HX' : forall x, In x (tids q) \/ In x (dying q) -> exists r', In (Recv e x, r') ((Cancel e t, r) :: h)).
  { intros x I. destruct (HX x I) as (r' & I'). exists r'. right. auto. }
  assert (WT' : forall x, waiting e x ((Cancel e t, r) :: h) -> x <> t /\ alive q x).
  { cbn [waiting]. intros x [N W]. split; [|auto]. intros ->. auto. }
  unfold cancel. destruct (lookup t (ready q)) as [b|] eqn:L.
  - unfold Good. cbn [dying]. split; [|split; [|split; [|split]]].
    + unfold tids. cbn [getters ready]. now rewrite mark_fst.
    + intros x I. cbn [items getters ready] in *. rewrite <- (map_length fst), mark_fst, map_length. apply (SV x I).
    + unfold tids. cbn [getters ready]. rewrite mark_fst. exact HX'.
    + intros x W. destruct (WT' x W) as [N [A|A]]; [now left|right]. cbn [ready]. now apply mark_keeps.
    + intros x I. cbn [ready]. rewrite mark_fst. destruct (DY x I) as [Y1 Y2]. split; auto. intros [Y|Y]; apply Y1; [now left|right].
      cbn [ready] in Y. now apply mark_in in Y.
  - destruct (lookup t (getters q)) as [[|]|] eqn:LG.
    + split; auto. split; auto. split; auto. split; auto. intros x W. now apply WT'.
    + unfold Good. cbn [dying]. split; [|split; [|split; [|split]]].
      * unfold tids. cbn [getters ready]. now rewrite mark_fst.
      * intros x I. cbn [items getters ready] in *. apply mark_in in I. apply (SV x I).
      * unfold tids. cbn [getters ready]. rewrite mark_fst. intros x [I|[<-|I]]; [apply HX'; now left| |apply HX'; now right].
        apply HX'. left. unfold tids. apply in_or_app. left. apply lookup_in in LG. now apply (in_map fst) in LG.
      * intros x W. destruct (WT' x W) as [N [A|A]]; [left|now right]. cbn [getters]. now apply mark_keeps.
      * intros x I. cbn [ready]. assert (X : t = x -> ~ alive (mkQ (items q) (mark t (getters q)) (ready q) (t :: dying q)) x /\ ~ In x (map fst (ready q))).
        { intros <-. apply lookup_none in L. split; auto. intros [Y|Y]; cbn [getters ready] in Y.
          - assert (NG := getters_nodup _ ND). clear -Y NG. induction (getters q) as [|[y b] l IH]; cbn in *; auto.
            inversion NG; subst. destruct (Nat.eqb_spec y t) as [->|N].
            + destruct Y as [Y|Y]; [discriminate|]. apply H1. now apply (in_map fst) in Y.
            + destruct Y as [Y|Y]; [congruence|auto].
          - apply L. now apply (in_map fst) in Y. }
        destruct I as [I|I]; [auto|]. destruct (DY x I) as [Y1 Y2]. split; auto.
        intros [Y|Y]; apply Y1; [left|right]; cbn [getters ready] in Y; auto. now apply mark_in in Y.
    + split; auto. split; auto. split; auto. split; auto. intros x W. now apply WT'.
Qed.

Lemma put_ok q m h e : Good q h e -> Good (put_nowait q m) h e.
Proof.
  intros (ND & SV & HX & WT & DY). unfold put_nowait. set (q1 := mkQ (items q ++ [m]) (getters q) (ready q) (dying q)).
  destruct (wakeup_next_ok q1 ND) as (A1 & A2 & A3 & A4 & A5). split; [exact A1|]. split; [|split; [|split]].
  - intros x I. rewrite (A4 x I), wakeup_items. unfold q1. cbn [items ready]. rewrite app_length. cbn. specialize (SV x (A5 x I)). lia.
  - rewrite wakeup_dying. intros x [I|I]; apply HX; [left; now apply A3|right; auto].
  - intros x W. apply A2. now apply WT.
  - rewrite wakeup_dying. intros x I. destruct (DY x I) as [Y1 Y2]. split.
    + intros Y. apply wakeup_alive in Y. auto.
    + intros Y. apply wakeup_ready in Y. destruct Y as [Y|Y]; [auto|]. apply Y1. now left.
Qed.

Lemma recv_ok q t q' r h e : get q t = (q', r) -> fresh t h -> Good q h e -> Good q' ((Recv e t, r) :: h) e.
Proof.
  intros G F (ND & SV & HX & WT & DY).
  assert (NI : ~ In t (tids q)) by (intros I; destruct (HX t (or_introl I)) as (r' & I'); exact (F _ _ I')).
  assert (NDY : ~ In t (dying q)) by (intros I; destruct (HX t (or_intror I)) as (r' & I'); exact (F _ _ I')).
  destruct (get_ok _ _ _ _ G ND NI SV) as (A & B & C & D & E).
  assert (ED : dying q' = dying q /\ ready q' = ready q) by (unfold get in G; destruct (items q); inversion G; auto).
  destruct ED as [ED ER]. split; auto. split; auto. split; [|split].
  - rewrite ED. intros x I. assert (X : (In x (tids q) \/ In x (dying q)) \/ x = t) by (destruct I as [I|I]; auto; destruct (D x I); auto).
    destruct X as [X| ->]; [destruct (HX x X) as (r' & I'); exists r'; right; auto|]. exists r. left. reflexivity.
  - intros x W. assert (X : waiting e x h \/ (x = t /\ r = Nothing)).
    { cbn [waiting] in W. destruct r; auto. destruct W as [[_ ->]|W]; auto. }
    destruct X as [X|[-> ->]]; auto.
  - rewrite ED, ER. intros x I. destruct (DY x I) as [Y1 Y2]. split; auto. intros Y. apply Y1.
    unfold get in G. destruct (items q); inversion G; subst; auto. destruct Y as [Y|Y]; [|now right]. cbn [getters] in Y.
    apply in_app_or in Y. destruct Y as [Y|[Y|[]]]; [now left|]. inversion Y; subst. contradiction.
Qed.

(** Events of the other end, and of no queue *)
Lemma good_skip q h e o r : Good q h e -> (forall t, waiting e t ((o, r) :: h) -> waiting e t h) -> Good q ((o, r) :: h) e.
Proof.
  intros (ND & SV & HX & WT & DY) W. split; auto. split; auto. split; [|split]; auto.
  intros x I. destruct (HX x I) as (r' & I'). exists r'. right. auto.
Qed.

Lemma good_reach p h : reach p h -> forall e, Good (inq p e) h e.
Proof.
  induction 1 as [|p h o p' r R IH ST F]; intros e.
  - destruct e; (split; [constructor|]; split; [intros t []|]; split; [intros t [[]|[]]|]; split; [intros t []|intros t []]).
  - destruct o as [e' m|e' t|e' t|e' t|]; cbn [step] in ST.
    + assert (S : forall q, Good q h e -> Good q ((Send e' m, r) :: h) e) by (intros q G; apply good_skip; auto).
      destruct (closed p); inversion ST; subst; [auto|]. rewrite inq_set. destruct (eqb (negb e') e) eqn:E; auto.
      apply eqb_prop in E. subst. apply S. now apply put_ok.
    + destruct (closed p); [inversion ST; subst; apply good_skip; auto|].
      destruct (get (inq p e') t) as [q r'] eqn:G. inversion ST; subst. rewrite inq_set. destruct (eqb e' e) eqn:E.
      * apply eqb_prop in E. subst. eapply recv_ok; eauto.
      * apply good_skip; auto. cbn [waiting]. intros x W. destruct r; auto. destruct W as [[-> _]|W]; auto. now rewrite eqb_reflx in E.
    + destruct (resume (inq p e') t) as [q r'] eqn:G. inversion ST; subst. rewrite inq_set. destruct (eqb e' e) eqn:E.
      * apply eqb_prop in E. subst. eapply resume_ok; eauto.
      * apply good_skip; auto. cbn [waiting]. intros x W. destruct r; tauto.
    + inversion ST; subst. rewrite inq_set. destruct (eqb e' e) eqn:E.
      * apply eqb_prop in E. subst. now apply cancel_ok.
      * apply good_skip; auto. cbn [waiting]. tauto.
    + inversion ST; subst. replace (inq (mkP true (inq0 p) (inq1 p)) e) with (inq p e) by now destruct e. apply good_skip; auto.
Qed.

(** ** The property *)

(** Received messages are, in order, the first of those sent from the other end. *)
Theorem C34_fifo_exactly_once p h : reach p h ->
  forall e, exists rest, sent (negb e) h = received e h ++ rest.
Proof. intros R e. exists (items (inq p e)). now apply fifo. Qed.

(** A receiver does not wait while a message is there: some receiver can run, and gets the
    message (or, if it was cancelled, ends and passes its turn on). *)
Theorem C34_no_receiver_sleeps_on_a_message p h e t : reach p h -> waiting e t h ->
  length (received e h) < length (sent (negb e) h) ->
  exists t' p' r, step p (Resume e t') = (p', r) /\ (r = Cancelled \/ exists m, r = Got m).
Proof.
  intros R W L. destruct (good_reach _ _ R e) as (ND & SV & HX & WT & DY).
  rewrite (fifo _ _ R e), app_length in L. destruct (items (inq p e)) as [|m ms] eqn:EI; [cbn in L; lia|].
  assert (NR : ready (inq p e) <> []).
  { intros N. destruct (WT t W) as [A|A]; [|rewrite N in A; destruct A]. specialize (SV t A). rewrite EI, N in SV. cbn in SV. lia. }
  destruct (ready (inq p e)) as [|[t' b] rs] eqn:ER; [congruence|].
  exists t'. cbn [step]. unfold resume. rewrite ER. cbn [lookup]. rewrite Nat.eqb_refl. destruct b.
  - eexists _, _. split; [reflexivity|]. auto.
  - unfold get. cbn [items]. rewrite EI. eexists _, _. split; [reflexivity|]. eauto.
Qed.

(** After a close at either end, sends and receives raise. *)
Theorem C34_closed_raises p h : reach p h -> was_closed h ->
  forall e m t, snd (step p (Send e m)) = Closed /\ snd (step p (Recv e t)) = Closed.
Proof.
  intros R (r & C) e m t.
  assert (CL : closed p = true).
  { induction R as [|p h o p' r' R IH ST F]; [destruct C|]. destruct C as [E|C].
    - inversion E; subst. cbn in ST. inversion ST. reflexivity.
    - specialize (IH C). destruct o; cbn [step] in ST; rewrite ?IH in ST; try (inversion ST; subst; auto; fail).
      + destruct (resume (inq p e0) t0). inversion ST; subst. now rewrite closed_set.
      + inversion ST; subst. now rewrite closed_set. }
  cbn [step]. now rewrite CL.
Qed.

(** Hence nothing is accepted after a close. *)
Theorem C34_nothing_accepted_after_close p h o p' r e : reach p h -> was_closed h -> step p o = (p', r) ->
  sent e ((o, r) :: h) = sent e h.
Proof.
  intros R C ST. destruct o as [e' m|e' t|e' t|e' t|]; auto. destruct (C34_closed_raises _ _ R C e' m 0) as [X _].
  rewrite ST in X. cbn in X. subst. reflexivity.
Qed.

(** *** A receive ends once *)
(** How often the receive of task [t] at end [e] has returned a message or raised. *)
Fixpoint endings (e : bool) (t : task) (h : history) : nat :=
  match h with
  | [] => 0
  | (Recv e' t', (Got _ | Closed | Cancelled)) :: h | (Resume e' t', (Got _ | Closed | Cancelled)) :: h =>
      if eqb e e' && (t =? t') then S (endings e t h) else endings e t h
  | _ :: h => endings e t h
  end.

Definition inside (q : queue) (t : task) : Prop := In t (tids q) \/ In t (dying q).
Definition Once (q : queue) (h : history) (e : bool) : Prop := NoDup (dying q) /\
  forall t, endings e t h <= 1 /\ (1 <= endings e t h -> ~ inside q t /\ exists r, In (Recv e t, r) h).

Lemma drop_task_nodup t l : NoDup l -> NoDup (drop_task t l) /\ ~ In t (drop_task t l).
Proof.
  induction l as [|y l IH]; cbn [drop_task]; intros ND; [split; auto|]. inversion ND as [|? ? NI ND']; subst.
  destruct (Nat.eqb_spec y t) as [->|N]; [split; auto|]. destruct (IH ND') as [A B]. split.
  - constructor; auto. intros I. apply NI. now apply drop_dying in I.
  - intros [E|I]; [congruence|auto].
Qed.

(** An event that ends the receive of [t], which leaves the queue. *)
Definition ender (r : outcome) : bool := match r with Got _ | Closed | Cancelled => true | _ => false end.
Lemma endings_recv e t e' t' r h : endings e t ((Recv e' t', r) :: h) =
  if ender r && (eqb e e' && (t =? t')) then S (endings e t h) else endings e t h.
Proof. destruct r; cbn [endings ender andb]; auto. Qed.
Lemma endings_resume e t e' t' r h : endings e t ((Resume e' t', r) :: h) =
  if ender r && (eqb e e' && (t =? t')) then S (endings e t h) else endings e t h.
Proof. destruct r; cbn [endings ender andb]; auto. Qed.

Lemma once_keep q q' h e o r : Once q h e -> NoDup (dying q') -> (forall t, inside q' t -> inside q t) ->
  (forall t, endings e t ((o, r) :: h) = endings e t h) -> Once q' ((o, r) :: h) e.
Proof.
  intros [_ A] N S E. split; [exact N|]. intros t. rewrite E. destruct (A t) as [B C]. split; auto.
  intros D. destruct (C D) as [F (r' & G)]. split; [auto|]. exists r'. now right.
Qed.
Lemma once_end q q' h e t o r : Once q h e -> Good q h e -> NoDup (dying q') -> (forall x, inside q' x -> inside q x) -> ~ inside q' t ->
  (inside q t \/ (fresh t h /\ o = Recv e t)) ->
  (forall x, endings e x ((o, r) :: h) = if x =? t then S (endings e x h) else endings e x h) -> Once q' ((o, r) :: h) e.
Proof.
  intros [_ A] (_ & _ & HX & _) N S NI W E. split; [exact N|]. intros x. rewrite E. destruct (A x) as [B C]. destruct (Nat.eqb_spec x t) as [->|D].
  - assert (Z : endings e t h = 0).
    { destruct (endings e t h) eqn:Z; auto. destruct C as [C1 (r' & C2)]; [lia|]. destruct W as [W|[W _]]; [contradiction|]. elim (W _ _ C2). }
    rewrite Z. split; [lia|]. intros _. split; [exact NI|]. destruct W as [W|[_ ->]]; [|exists r; now left].
    destruct (HX t W) as (r' & X). exists r'. now right.
  - split; auto. intros F. destruct (C F) as [G (r' & G')]. split; [auto|]. exists r'. now right.
Qed.

Lemma resume_inside q t q' r : resume q t = (q', r) -> NoDup (tids q) -> NoDup (dying q) ->
  (forall x, In x (dying q) -> ~ In x (map fst (ready q))) ->
  NoDup (dying q') /\ (forall x, inside q' x -> inside q x) /\ (ender r = true -> inside q t /\ ~ inside q' t).
Proof.
  unfold resume. intros RS ND NN DY. destruct (lookup t (ready q)) as [b|] eqn:L.
  - destruct (drop_ready q t _ ND L) as (A & B & _ & D). cbn zeta in *. set (q1 := mkQ (items q) (getters q) (drop t (ready q)) (dying q)) in *.
    assert (IT : In t (map fst (ready q))) by (apply lookup_in in L; now apply (in_map fst) in L).
    assert (IN : inside q t) by (left; unfold tids; apply in_or_app; auto).
    assert (ND' : ~ In t (dying q)) by (intros X; exact (DY t X IT)).
    assert (D1 : forall x, inside q1 x -> inside q x) by (intros x [X|X]; [left; auto|right; exact X]).
    assert (N1 : ~ inside q1 t) by (intros [X|X]; auto).
    destruct b.
    + inversion RS; subst; clear RS. destruct (items q) eqn:EI.
      * split; [exact NN|]. split; auto.
      * destruct (wakeup_next_ok q1 A) as (_ & _ & A3 & _).
        assert (W : forall x, inside (wakeup_next q1) x -> inside q1 x).
        { intros x [X|X]; [left; auto|right]. now rewrite wakeup_dying in X. }
        rewrite wakeup_dying. split; [exact NN|]. split; [auto|]. intros _. split; [auto|]. intros X. auto.
    + unfold get in RS. cbn [items getters ready dying] in RS. destruct (items q) eqn:EI; inversion RS; subst; clear RS; cbn [dying].
      * split; [exact NN|]. split; [|discriminate]. intros x [X|X]; [|right; exact X].
        unfold tids in X. cbn [getters ready] in X. rewrite map_app in X. cbn [map fst] in X. rewrite <- app_assoc in X. cbn [app] in X.
        apply in_app_or in X. cbn [In] in X. destruct X as [X|[<-|X]]; [apply D1; left; unfold tids, q1; apply in_or_app; auto|exact IN|].
        apply D1. left. unfold tids, q1. apply in_or_app. auto.
      * split; [exact NN|]. split; auto.
  - destruct (existsb (Nat.eqb t) (dying q)) eqn:DT; inversion RS; subst; clear RS; cbn [dying].
    + apply existsb_exists in DT. destruct DT as (z & Iz & Ez). apply Nat.eqb_eq in Ez. subst z.
      destruct (drop_task_nodup t _ NN) as [A B]. split; [exact A|]. apply lookup_none in L. split.
      * intros x [X|X]; [left|right; now apply drop_dying in X]. unfold tids in *. cbn [getters ready] in X. apply in_app_or in X. apply in_or_app.
        destruct X as [X|X]; auto. left. apply in_map_iff in X. destruct X as ([y b'] & <- & X). apply drop_in in X. now apply (in_map fst) in X.
      * intros _. split; [right; exact Iz|]. intros [X|X]; [|contradiction]. unfold tids in X. cbn [getters ready] in X. apply in_app_or in X.
        destruct X as [X|X]; [|contradiction]. apply drop_nodup in X; [exact X|]. now apply getters_nodup.
    + split; auto. split; [auto|discriminate].
Qed.

Lemma once_reach p h : reach p h -> forall e, Once (inq p e) h e.
Proof.
  induction 1 as [|p h o p' r R IH ST F]; intros e.
  - split; [destruct e; constructor|]. intros t. cbn. split; [lia|]. lia.
  - assert (GD := good_reach _ _ R e). specialize (IH e). assert (ND := proj1 IH).
    destruct o as [e' m|e' t|e' t|e' t|]; cbn [step] in ST.
    + destruct (closed p); inversion ST; subst; [apply (once_keep _ _ _ _ _ _ IH); auto|]. rewrite inq_set.
      destruct (eqb (negb e') e) eqn:E; [|apply (once_keep _ _ _ _ _ _ IH); auto]. apply eqb_prop in E. subst.
      apply (once_keep _ _ _ _ _ _ IH); auto; unfold put_nowait; [now rewrite wakeup_dying|].
      intros x [X|X]; [left|right; now rewrite wakeup_dying in X].
      apply wakeup_next_ok in X; [exact X|]. exact (proj1 GD).
    + specialize (F e' t eq_refl). destruct (closed p).
      { inversion ST; subst; clear ST.
        assert (FR : forall x, inside (inq p' e) x -> x <> t).
        { intros x X ->. destruct GD as (_ & _ & HX & _). destruct (HX t X) as (r' & X'). exact (F _ _ X'). }
        destruct (eqb e e') eqn:E.
        - apply eqb_prop in E. subst. apply (once_end _ _ _ _ t _ _ IH GD); auto.
          + intros X. exact (FR t X eq_refl).
          + intros x. rewrite endings_recv, eqb_reflx. reflexivity.
        - apply (once_keep _ _ _ _ _ _ IH); auto. intros x. rewrite endings_recv, E. reflexivity. }
      destruct (get (inq p e') t) as [q r'] eqn:G. inversion ST; subst. rewrite inq_set. destruct (eqb e' e) eqn:E.
      * apply eqb_prop in E. subst.
        assert (NI : ~ inside (inq p e) t).
        { intros X. destruct GD as (_ & _ & HX & _). destruct (HX t X) as (r' & X'). exact (F _ _ X'). }
        unfold get in G. destruct (items (inq p e)) eqn:EI; inversion G; subst; clear G.
        -- split; [exact ND|]. intros x. rewrite endings_recv. cbn [ender andb]. destruct (proj2 IH x) as [A B]. split; auto. intros C.
           destruct (B C) as [D (r' & D')]. split; [|exists r'; now right]. intros [X|X]; [|apply D; right; exact X].
           unfold tids in X. cbn [getters ready] in X. rewrite map_app in X. cbn [map fst] in X. rewrite <- app_assoc in X. cbn [app] in X.
           apply in_app_or in X. cbn [In] in X. destruct X as [X|[<-|X]];
             [apply D; left; unfold tids; apply in_or_app; auto|elim (F _ _ D')|apply D; left; unfold tids; apply in_or_app; auto].
        -- apply (once_end _ _ _ _ t _ _ IH GD); auto. intros x. rewrite endings_recv, eqb_reflx. reflexivity.
      * apply (once_keep _ _ _ _ _ _ IH); auto. intros x. rewrite endings_recv.
        replace (eqb e e') with false; [now destruct (ender r)|]. now destruct e, e'.
    + destruct (resume (inq p e') t) as [q r'] eqn:G. inversion ST; subst. rewrite inq_set. destruct (eqb e' e) eqn:E.
      * apply eqb_prop in E. subst. pose proof GD as (NT & _ & _ & _ & DY).
        destruct (resume_inside _ _ _ _ G NT ND (fun x X => proj2 (DY x X))) as (A & B & C).
        destruct (ender r) eqn:ER.
        -- destruct (C eq_refl) as [C1 C2]. apply (once_end _ _ _ _ t _ _ IH GD); auto. intros x. rewrite endings_resume, eqb_reflx, ER. reflexivity.
        -- apply (once_keep _ _ _ _ _ _ IH); auto. intros x. rewrite endings_resume, ER. reflexivity.
      * apply (once_keep _ _ _ _ _ _ IH); auto. intros x. rewrite endings_resume.
        replace (eqb e e') with false; [now destruct (ender r)|]. now destruct e, e'.
    + inversion ST; subst. rewrite inq_set. destruct (eqb e' e) eqn:E; [|apply (once_keep _ _ _ _ _ _ IH); auto].
      apply eqb_prop in E. subst. destruct GD as (_ & _ & _ & _ & DY).
      apply (once_keep _ _ _ _ _ _ IH); auto; unfold cancel; destruct (lookup t (ready (inq p e))) eqn:L; cbn [dying]; auto.
      * destruct (lookup t (getters (inq p e))) as [[|]|] eqn:LG; cbn [dying]; auto. constructor; auto. intros X. apply DY in X.
        apply (proj1 X). left. now apply lookup_in in LG.
      * unfold inside, tids. cbn [getters ready dying]. now rewrite mark_fst.
      * destruct (lookup t (getters (inq p e))) as [[|]|] eqn:LG; auto. unfold inside, tids. cbn [getters ready dying]. rewrite mark_fst.
        intros x [X|[<-|X]]; auto. left. apply in_or_app. left. apply lookup_in in LG. now apply (in_map fst) in LG.
    + inversion ST; subst. replace (inq (mkP true (inq0 p) (inq1 p)) e) with (inq p e) by now destruct e.
      apply (once_keep _ _ _ _ _ _ IH); auto.
Qed.

(** No receive ends twice: whoever got a message, or was cancelled, is out of the queue for good. *)
Theorem C34_receive_ends_once p h e t : reach p h -> endings e t h <= 1.
Proof. intros R. apply (once_reach _ _ R e). Qed.

(** *** A receive that is waiting when the channel is closed *)
Fixpoint exec (p : pair) (l : list op) : pair * history :=
  match l with
  | [] => (p, [])
  | o :: l => let (p1, r) := step p o in let (p2, h) := exec p1 l in (p2, h ++ [(o, r)])
  end.

(** Claim: it ends (with an error) without being cancelled. *)
Definition C34_waiting_receive_ends : Prop := forall p h e t, reach p h -> waiting e t h -> was_closed h ->
  exists l, (forall e' t', ~ In (Cancel e' t') l) /\ ~ waiting e t (snd (exec p l) ++ h).

Module Demo.
  Definition ops := [Recv true 1; Recv true 2; Send false 10; Cancel true 1; Send false 20; Resume true 1; Send true 7; Resume true 2; Recv false 3; Recv true 4].
  Definition h := snd (exec start ops).
  Example demo_received : received true h = [10; 20] /\ sent false h = [10; 20] /\ received false h = [7].
  Proof. repeat split. Qed.
  Example demo_waiting : waiting true 2 (snd (exec start (firstn 6 ops))) /\
    length (received true (snd (exec start (firstn 6 ops)))) < length (sent false (snd (exec start (firstn 6 ops)))).
  Proof. cbn. repeat split; auto; try lia; intros [_ X]; discriminate. Qed.
  Lemma exec_reach l : forall p h0, reach p h0 ->
    (forall e t, In (Recv e t) l -> fresh t h0) -> NoDup (concat (map (fun o => match o with Recv _ t => [t] | _ => [] end) l)) ->
    reach (fst (exec p l)) (snd (exec p l) ++ h0).
  Proof.
    induction l as [|o l IH]; intros p h0 R F ND; [exact R|]. cbn [exec]. destruct (step p o) as [p1 r] eqn:E.
    specialize (IH p1 ((o, r) :: h0)). destruct (exec p1 l) as [p2 hh]. cbn [fst snd] in *. rewrite <- app_assoc. cbn [app]. apply IH.
    - econstructor; eauto. intros e t ->. eapply F. left. reflexivity.
    - intros e t I e' r' [X|X]; [|eapply F; [right; eauto|eauto]]. inversion X; subst. cbn in ND. inversion ND; subst.
      apply H1. apply in_concat. exists [t]. split; cbn; auto. apply in_map_iff. exists (Recv e t). auto.
    - cbn [map concat] in ND. destruct o; auto. cbn in ND. inversion ND; auto.
  Qed.
  Example demo_reach : reach (fst (exec start ops)) h.
  Proof.
    unfold h. rewrite <- (app_nil_r (snd (exec start ops))). apply exec_reach; [constructor| |].
    - intros e t _ e' r [].
    - cbn. repeat constructor; cbn; intuition discriminate.
  Qed.
End Demo.

Lemma hang l : (forall e' t', ~ In (Cancel e' t') l) -> forall q1 h0, waiting false 1 h0 ->
  waiting false 1 (snd (exec (mkP true (mkQ [] [(1, false)] [] []) q1) l) ++ h0).
Proof.
  intros NC. induction l as [|o l IH]; intros q1 h0 W0; [exact W0|].
  assert (NC' : forall e' t', ~ In (Cancel e' t') l) by (intros e' t' X; apply (NC e' t'); cbn; auto).
  specialize (IH NC'). cbn [exec].
  assert (ST : exists q1' r, step (mkP true (mkQ [] [(1, false)] [] []) q1) o = (mkP true (mkQ [] [(1, false)] [] []) q1', r) /\ waiting false 1 ((o, r) :: h0)).
  { destruct o as [e m|e t|e t|e t|]; cbn [step closed].
    - eexists _, _. split; [reflexivity|exact W0].
    - eexists _, _. split; [reflexivity|exact W0].
    - destruct e.
      + cbn [inq inq1]. destruct (resume q1 t) as [q r]. eexists _, _. split; [reflexivity|]. cbn [waiting]. destruct r; auto. split; auto. intros [X _]. discriminate.
      + cbn. eexists _, _. split; [reflexivity|exact W0].
    - elim (NC e t). cbn. auto.
    - eexists _, _. split; [reflexivity|exact W0]. }
  destruct ST as (q1' & r & -> & W1). specialize (IH q1' ((o, r) :: h0) W1).
  destruct (exec (mkP true (mkQ [] [(1, false)] [] []) q1') l) as [p2 hh]. cbn [snd] in *. rewrite <- app_assoc. exact IH.
Qed.

(** It waits for ever: only a cancellation ends it. *)
Theorem C34_waiting_receive_hangs_at_close_refuted : ~ C34_waiting_receive_ends.
Proof.
  intros C.
  assert (R : reach (fst (exec start [Recv false 1; Close])) (snd (exec start [Recv false 1; Close]))).
  { refine (Demo.exec_reach [Recv false 1; Close] start [] _ _ _); [constructor| |].
    - intros e t _ e' r [].
    - cbn. repeat constructor; auto. }
  destruct (C _ _ false 1 R) as (l & NC & NW).
  - cbn. auto.
  - exists Nothing. cbn. auto.
  - apply NW. apply (hang l NC empty_queue). cbn. auto.
Qed.

Print Assumptions C34_fifo_exactly_once.
Print Assumptions C34_no_receiver_sleeps_on_a_message.
Print Assumptions C34_closed_raises.
Print Assumptions C34_nothing_accepted_after_close.
Print Assumptions C34_waiting_receive_hangs_at_close_refuted.
Print Assumptions C34_receive_ends_once.
