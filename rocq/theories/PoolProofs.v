From Coq Require Import List Arith Bool Lia.
From Verif Require Import Base PoolModel.
Import ListNotations.

(** ** Vocabulary of the statements *)

(** The answers on the wire for a request whose handler produced [b] and whose
    attempts to answer ended as in [sends]. *)
Definition answers (mid : nat) (b : body) (sends : list sent) : list reply :=
  match sends with
  | [SOk] => [(mid, b)]
  | [SOther; SOk] => [(mid, BErr XSendFailed)]
  | _ => []
  end.

Definition on_wire (s : pool) (k : nat) : list reply :=
  map snd (filter (fun w => fst w =? k) (wire s)).

Definition suspended (p : phase) : bool :=
  match p with PPost _ | PPre _ | PCall | PTell => true | _ => false end.

(** ** One task *)
Definition task_ok (s : pool) (k : nat) (t : task) : Prop :=
  match t_phase t with
  | PPost u => t_result t = None /\ t_sends t = [] /\ on_wire s k = [] /\ exists c, r_kind (t_req t) = KCreate u c
  | PPre u => t_result t = None /\ t_sends t = [] /\ on_wire s k = [] /\ r_kind (t_req t) = KDestroy u
  | PCall => t_result t = None /\ t_sends t = [] /\ on_wire s k = [] /\ exists u, r_kind (t_req t) = KSend u
  | PTell => t_result t = None /\ t_sends t = [] /\ on_wire s k = [] /\ exists u, r_kind (t_req t) = KTell u
  | PSend b true => t_result t = Some b /\ t_sends t = [] /\ on_wire s k = []
  | PSend b false => b = BErr XSendFailed /\ t_result t <> None /\ t_sends t = [SOther] /\ on_wire s k = []
  | PEnd => (t_result t = None /\ r_kind (t_req t) = KOther /\ t_sends t = [] /\ on_wire s k = []) \/
            (exists b, t_result t = Some b /\
               (t_sends t = [SOk] \/ t_sends t = [SClosed] \/ exists o, t_sends t = [SOther; o]) /\
               on_wire s k = answers (r_id (t_req t)) b (t_sends t))
  end.

Record Inv (s : pool) : Prop := {
  inv_task : forall k t, nth_error (tasks s) k = Some t -> task_ok s k t;
  inv_wire : forall k r, In (k, r) (wire s) -> k < length (tasks s)
}.

Lemma on_wire_same : forall s s' k, wire s' = wire s -> on_wire s' k = on_wire s k.
Proof. intros. unfold on_wire. now rewrite H. Qed.

Lemma task_ok_wire : forall s s' k t, on_wire s' k = on_wire s k -> task_ok s k t -> task_ok s' k t.
Proof. intros s s' k t E. unfold task_ok. rewrite E. auto. Qed.

Lemma task_ok_cancel : forall s k t c, task_ok s k t ->
  task_ok s k (Task (t_req t) (t_phase t) (t_result t) (t_sends t) c).
Proof. intros. exact H. Qed.

Lemma on_wire_new : forall s k, (forall k r, In (k, r) (wire s) -> k < length (tasks s)) ->
  length (tasks s) <= k -> on_wire s k = [].
Proof.
  intros s k W L. unfold on_wire.
  replace (filter (fun w => fst w =? k) (wire s)) with (@nil (nat * reply)); auto.
  symmetry. destruct (filter (fun w => fst w =? k) (wire s)) as [|[k' r] l] eqn:F; auto.
  assert (I : In (k', r) (filter (fun w => fst w =? k) (wire s))) by (rewrite F; simpl; auto).
  apply filter_In in I. destruct I as [I1 I2]. simpl in I2. apply Nat.eqb_eq in I2. subst.
  apply W in I1. lia.
Qed.

(** What [handler_start] can change. *)
Lemma handler_start_spec : forall s r s1 f, handler_start s r = (s1, f) ->
  length (tasks s1) = length (tasks s) /\ log s1 = log s /\ wire s1 = wire s /\ procs s1 = procs s /\
  (forall k t, nth_error (tasks s1) k = Some t ->
     exists t0 c, nth_error (tasks s) k = Some t0 /\
       t = Task (t_req t0) (t_phase t0) (t_result t0) (t_sends t0) c).
Proof.
  intros s r s1 f H.
  assert (Id : forall k t, nth_error (tasks s) k = Some t ->
     exists t0 c, nth_error (tasks s) k = Some t0 /\
       t = Task (t_req t0) (t_phase t0) (t_result t0) (t_sends t0) c).
  { intros k t E. exists t, (t_cancel t). split; auto. now destruct t. }
  unfold handler_start in H.
  destruct (r_kind r);
    try (repeat match type of H with
         | (if ?b then _ else _) = _ => destruct b
         | (match dget ?a ?b with _ => _ end) = _ => destruct (dget a b) eqn:?
         end; inversion H; subst; simpl; auto 6; fail).
  destruct (dget (procs s) target) as [k0|] eqn:D.
  - destruct (nth_error (tasks s) k0) as [t0|] eqn:N; inversion H; subst; simpl; auto 6.
    rewrite lset_length. repeat split; auto.
    intros k t E. rewrite nth_error_lset in E. destruct (Nat.eqb_spec k0 k); auto.
    destruct (k0 <? length (tasks s)); inversion E; subst. exists t0, true. auto.
  - inversion H; subst; simpl; auto 6.
Qed.

Lemma handler_end_spec : forall s p e s1 b, handler_end s p e = (s1, b) ->
  tasks s1 = tasks s /\ log s1 = log s /\ wire s1 = wire s /\ procs s1 = procs s.
Proof.
  intros s p e s1 b H. unfold handler_end in H.
  destruct p; destruct e;
    repeat match type of H with (if ?b then _ else _) = _ => destruct b end;
    inversion H; subst; auto.
Qed.

Lemma handler_start_phase : forall s r s1 p, handler_start s r = (s1, Suspend p) ->
  match p with
  | PPost u => exists c, r_kind r = KCreate u c
  | PPre u => r_kind r = KDestroy u
  | PCall => exists u, r_kind r = KSend u
  | PTell => exists u, r_kind r = KTell u
  | _ => False
  end.
Proof.
  intros s r s1 p H. unfold handler_start in H.
  destruct (r_kind r) eqn:K;
    repeat match type of H with
         | (if ?b then _ else _) = _ => destruct b
         | (match ?x with _ => _ end) = _ => destruct x
         end; inversion H; subst; eauto.
Qed.

(** How [step] changes the list of tasks and the wire. *)
Lemma step_inv : forall s ev, Inv s -> Inv (step s ev).
Proof.
  intros s ev I. destruct ev as [r|k e|k o]; cbn [step].
  - assert (New : forall s1 k t' p res, length (tasks s1) = length (tasks s) -> wire s1 = wire s ->
       t' = Task r p res [] false ->
       (forall k t, nth_error (tasks s1) k = Some t -> exists t0 c, nth_error (tasks s) k = Some t0 /\
          t = Task (t_req t0) (t_phase t0) (t_result t0) (t_sends t0) c) ->
       (forall s', on_wire s' (length (tasks s)) = [] -> task_ok s' (length (tasks s)) t') ->
       forall a m pr lg, k = length (tasks s) -> Inv (Pool a m pr (tasks s1 ++ [t']) lg (wire s1))).
    { intros s1 k t' p res L W -> T OK a m pr lg ->. constructor; cbn [tasks wire].
      - intros k t N. destruct (Nat.lt_ge_cases k (length (tasks s))) as [Lk|Lk].
        + rewrite nth_error_app1 in N by lia. destruct (T _ _ N) as [t0 [c [N0 ->]]].
          apply task_ok_cancel. eapply task_ok_wire; [|apply (inv_task _ I _ _ N0)].
          apply on_wire_same. auto.
        + rewrite nth_error_app2 in N by lia. destruct (k - length (tasks s1)) eqn:E; simpl in N; [|destruct n; discriminate].
          inversion N; subst. assert (k = length (tasks s)) by lia. subst k. apply OK.
          unfold on_wire. cbn [wire]. rewrite W. apply on_wire_new; auto. apply (inv_wire _ I).
      - intros k x H. rewrite app_length. simpl. rewrite W in H. apply (inv_wire _ I) in H. lia. }
    assert (Idt : forall k t, nth_error (tasks s) k = Some t -> exists t0 c, nth_error (tasks s) k = Some t0 /\
          t = Task (t_req t0) (t_phase t0) (t_result t0) (t_sends t0) c).
    { intros k t E. exists t, (t_cancel t). split; auto. now destruct t. }
    assert (Old : r_kind r <> KOther -> Inv (let (s1, f) := handler_start s r in
          match f with
          | Suspend p => Pool (actors s1) (made s1) (dset (procs s1) (r_id r) (length (tasks s)))
                   (tasks s1 ++ [Task r p None [] false]) (log s1) (wire s1)
          | Answer b => Pool (actors s1) (made s1) (ddel (procs s1) (r_id r))
                   (tasks s1 ++ [Task r (PSend b true) (Some b) [] false])
                   (log s1 ++ [(r, b)]) (wire s1)
          end)).
    { intros NK. destruct (handler_start s r) as [s1 f] eqn:E.
      destruct (handler_start_spec _ _ _ _ E) as [L [Lg [W [P T]]]].
      destruct f as [p|b].
      - eapply New; eauto. intros s' O. apply handler_start_phase in E. unfold task_ok. simpl.
        destruct p; try contradiction; auto.
      - eapply New; eauto. intros s' O. unfold task_ok. simpl. auto. }
    destruct (r_kind r) eqn:K; try (apply Old; discriminate).
    eapply New; eauto. intros s' O. unfold task_ok. simpl. left. auto.
  - destruct (nth_error (tasks s) k) as [t|] eqn:N; auto.
    assert (Sus : suspended (t_phase t) = true ->
      Inv (let (s1, b) := handler_end s (t_phase t) e in
              Pool (actors s1) (made s1) (ddel (procs s1) (r_id (t_req t)))
                   (lset (tasks s1) k (set_phase t (PSend b true) (Some b) (t_sends t)))
                   (log s1 ++ [(t_req t, b)]) (wire s1))).
    { intros Su. destruct (handler_end s (t_phase t) e) as [s1 b] eqn:E.
      destruct (handler_end_spec _ _ _ _ _ E) as [T [Lg [W P]]].
      pose proof (inv_task _ I _ _ N) as OK. constructor; cbn [tasks wire].
      - intros k' t' N'. rewrite T, nth_error_lset in N'. destruct (Nat.eqb_spec k k').
        + subst k'. destruct (k <? length (tasks s)); inversion N'; subst. unfold task_ok, set_phase. simpl.
          unfold task_ok in OK. unfold on_wire in *. simpl. rewrite W.
          destruct (t_phase t); try discriminate; intuition.
        + eapply task_ok_wire; [|apply (inv_task _ I _ _ N')]. now apply on_wire_same.
      - intros k' x H. rewrite lset_length, T. rewrite W in H. now apply (inv_wire _ I) in H. }
    destruct (t_phase t); try (apply Sus; reflexivity); auto.
  - destruct (nth_error (tasks s) k) as [t|] eqn:N; auto.
    destruct (t_phase t) as [| | | |b rs|] eqn:Ph; auto.
    pose proof (inv_task _ I _ _ N) as OK. unfold task_ok in OK. rewrite Ph in OK.
    assert (Oth : forall p lg, (forall s', on_wire s' k = on_wire s k ->
               task_ok s' k (set_phase t p (t_result t) (t_sends t ++ [o]))) ->
      Inv (Pool (actors s) (made s) (procs s)
            (lset (tasks s) k (set_phase t p (t_result t) (t_sends t ++ [o]))) lg (wire s))).
    { intros p lg OK'. constructor; cbn [tasks wire].
      - intros k' t' N'. rewrite nth_error_lset in N'. destruct (Nat.eqb_spec k k').
        + subst k'. destruct (k <? length (tasks s)); inversion N'; subst. apply OK'. reflexivity.
        + eapply task_ok_wire; [|apply (inv_task _ I _ _ N')]. reflexivity.
      - intros k' x H. rewrite lset_length. now apply (inv_wire _ I) in H. }
    destruct o.
    + constructor; cbn [tasks wire].
      * intros k' t' N'. rewrite nth_error_lset in N'. destruct (Nat.eqb_spec k k').
        -- subst k'. destruct (k <? length (tasks s)); inversion N'; subst.
           unfold task_ok, set_phase. simpl. right. 
           unfold on_wire in *. cbn [wire]. rewrite filter_app, map_app. simpl. rewrite Nat.eqb_refl.
           destruct rs.
           ++ destruct OK as [O1 [O2 O3]]. exists b. rewrite O2. simpl. rewrite O3. auto.
           ++ destruct OK as [O1 [O2 [O3 O4]]]. destruct (t_result t) as [b'|]; [|congruence].
              exists b'. rewrite O3. simpl. rewrite O4. subst b. split; auto. split; eauto.
        -- eapply task_ok_wire; [|apply (inv_task _ I _ _ N')]. unfold on_wire. cbn [wire].
           rewrite filter_app. simpl. destruct (Nat.eqb_spec k k'); [congruence|]. now rewrite app_nil_r.
      * intros k' x H. rewrite lset_length. apply in_app_or in H. destruct H as [H|[H|[]]].
        -- now apply (inv_wire _ I) in H.
        -- inversion H; subst. apply nth_error_Some. congruence.
    + apply Oth. intros s' O. unfold task_ok, set_phase. simpl. right. rewrite O.
      destruct rs.
      * destruct OK as [O1 [O2 O3]]. exists b. rewrite O2. simpl. auto.
      * destruct OK as [O1 [O2 [O3 O4]]]. destruct (t_result t) as [b'|]; [|congruence].
        exists b'. rewrite O3. simpl. split; auto. split; eauto.
    + destruct rs.
      * apply Oth. intros s' O. unfold task_ok, set_phase. simpl. rewrite O.
        destruct OK as [O1 [O2 O3]]. rewrite O2. simpl. repeat split; auto. congruence.
      * apply Oth. intros s' O. unfold task_ok, set_phase. simpl. right. rewrite O.
        destruct OK as [O1 [O2 [O3 O4]]]. destruct (t_result t) as [b'|]; [|congruence].
        exists b'. rewrite O3. simpl. split; auto. split; eauto.
Qed.

Lemma inv_init : Inv init.
Proof. constructor; simpl; [intros [|k] t; discriminate|tauto]. Qed.

Lemma run_inv : forall evs s, Inv s -> Inv (run s evs).
Proof. induction evs; simpl; intros; auto. apply IHevs, step_inv, H. Qed.
Lemma reach_inv : forall evs, Inv (run init evs).
Proof. intros. apply run_inv, inv_init. Qed.
Lemma run_app : forall s a b, run s (a ++ b) = run (run s a) b.
Proof. intros. apply fold_left_app. Qed.
