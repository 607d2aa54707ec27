From Coq Require Import List Arith Bool Lia.
From Verif Require Import Base CallerModel.
Import ListNotations.

Definition ids (c : caller) : list nat := map f_id (futures c).

(** ** Elementary facts about the future list *)

Lemma set_state_length : forall fs n s, length (set_state fs n s) = length fs.
Proof. intros. unfold set_state. destruct (nth_error fs n); auto. apply lset_length. Qed.

Lemma set_state_nth : forall fs n s k,
  nth_error (set_state fs n s) k =
  match nth_error fs k with
  | Some f => Some (if Nat.eqb n k then Fut (f_id f) s else f)
  | None => None
  end.
Proof.
  intros. unfold set_state. destruct (nth_error fs n) as [f|] eqn:E.
  - rewrite nth_error_lset. destruct (Nat.eqb_spec n k); subst.
    + rewrite E. assert (k < length fs) by (apply nth_error_Some; congruence).
      destruct (Nat.ltb_spec k (length fs)); [auto|lia].
    + now destruct (nth_error fs k).
  - destruct (Nat.eqb_spec n k); subst.
    + now rewrite E.
    + now destruct (nth_error fs k).
Qed.

Lemma set_state_ids : forall fs n s, map f_id (set_state fs n s) = map f_id fs.
Proof.
  intros. apply nth_error_ext. intros i. rewrite !nth_error_map, set_state_nth.
  destruct (nth_error fs i); simpl; auto. now destruct (Nat.eqb n i).
Qed.

Lemma set_exception_inv : forall fs n e fs',
  set_exception fs n e = Some fs' ->
  fs' = set_state fs n (Failed e) /\ (forall f, nth_error fs n = Some f -> f_state f = Pending).
Proof.
  unfold set_exception; intros fs n e fs' E. destruct (nth_error fs n) as [f|] eqn:En.
  - unfold done in E. destruct (f_state f) eqn:Ef; inversion E; split; auto;
      intros f' E'; inversion E'; subst; auto.
  - inversion E; subst. unfold set_state. rewrite En. split; auto. congruence.
Qed.

Lemma fail_all_length : forall t fs e fs' b, fail_all fs t e = (fs', b) -> length fs' = length fs.
Proof.
  induction t as [|[k n] t IH]; simpl; intros fs e fs' b E.
  - inversion E; auto.
  - destruct (set_exception fs n e) as [fs1|] eqn:E1.
    + apply IH in E. apply set_exception_inv in E1. destruct E1; subst.
      now rewrite E, set_state_length.
    + inversion E; auto.
Qed.

Lemma fail_all_ids : forall t fs e fs' b,
  fail_all fs t e = (fs', b) -> map f_id fs' = map f_id fs.
Proof.
  induction t as [|[k n] t IH]; simpl; intros fs e fs' b E.
  - inversion E; auto.
  - destruct (set_exception fs n e) as [fs1|] eqn:E1.
    + apply IH in E. apply set_exception_inv in E1. destruct E1; subst.
      now rewrite E, set_state_ids.
    + inversion E; auto.
Qed.

(** Each future is unchanged or went from Pending to Failed e. *)
Lemma fail_all_nth : forall t fs e fs' b k f',
  fail_all fs t e = (fs', b) -> nth_error fs' k = Some f' ->
  nth_error fs k = Some f' \/ (exists f, nth_error fs k = Some f /\ f_state f = Pending /\ f' = Fut (f_id f) (Failed e)).
Proof.
  induction t as [|[k0 n] t IH]; simpl; intros fs e fs' b k f' E N.
  - inversion E; subst; auto.
  - destruct (set_exception fs n e) as [fs1|] eqn:E1.
    + destruct (set_exception_inv _ _ _ _ E1) as [S P]. subst fs1.
      destruct (IH _ _ _ _ _ _ E N) as [H|[f [H1 [H2 H3]]]].
      * rewrite set_state_nth in H. destruct (nth_error fs k) as [f|] eqn:Ek; [|discriminate].
        destruct (Nat.eqb_spec n k); subst; inversion H; subst; auto.
        right. exists f. repeat split; auto.
      * rewrite set_state_nth in H1. destruct (nth_error fs k) as [f0|] eqn:Ek; [|discriminate].
        destruct (Nat.eqb_spec n k); subst; inversion H1; subst; auto.
        -- simpl in H2. discriminate.
        -- right. exists f. auto.
    + inversion E; subst; auto.
Qed.

(** If the loop ran to its end, every future of the table is done. *)
Lemma fail_all_done : forall t fs e fs',
  fail_all fs t e = (fs', true) ->
  forall m n, In (m, n) t -> forall f, nth_error fs' n = Some f -> done f = true.
Proof.
  induction t as [|[k0 n0] t IH]; simpl; intros fs e fs' E m n I f N; [tauto|].
  destruct (set_exception fs n0 e) as [fs1|] eqn:E1; [|discriminate].
  destruct (set_exception_inv _ _ _ _ E1) as [S P]. subst fs1.
  destruct I as [I|I].
  - inversion I; subst. destruct (fail_all_nth _ _ _ _ _ _ _ E N) as [H|[f0 [H1 [H2 H3]]]].
    + rewrite set_state_nth in H. destruct (nth_error fs n); [|discriminate].
      rewrite Nat.eqb_refl in H. inversion H; reflexivity.
    + subst; reflexivity.
  - eapply IH; eauto.
Qed.

(** The loop runs to its end when the table's futures are pending and distinct. *)
Lemma fail_all_ok : forall t fs e,
  NoDup (map snd t) ->
  (forall m n f, In (m, n) t -> nth_error fs n = Some f -> f_state f = Pending) ->
  exists fs', fail_all fs t e = (fs', true).
Proof.
  induction t as [|[k0 n0] t IH]; simpl; intros fs e ND P.
  - eauto.
  - inversion ND; subst.
    assert (S : set_exception fs n0 e = Some (set_state fs n0 (Failed e))).
    { unfold set_exception. destruct (nth_error fs n0) as [f|] eqn:E.
      - unfold done. rewrite (P k0 n0 f (or_introl eq_refl) E). reflexivity.
      - unfold set_state. now rewrite E. }
    rewrite S. apply IH; auto. intros m n f I N. rewrite set_state_nth in N.
    destruct (nth_error fs n) as [f0|] eqn:E; [|discriminate].
    destruct (Nat.eqb_spec n0 n); subst.
    + exfalso. apply H1. change n with (snd (m, n)). now apply in_map.
    + inversion N; subst. eauto.
Qed.

(** ** Invariant *)

Record Inv (c : caller) : Prop := {
  inv_nodup : NoDup (dkeys (table c));
  inv_table : forall m n, dget (table c) m = Some n ->
              exists f, nth_error (futures c) n = Some f /\ f_id f = m;
  inv_pending : listening c = true -> NoDup (ids c) ->
              forall n f, nth_error (futures c) n = Some f -> f_state f = Pending ->
              dget (table c) (f_id f) = Some n;
  inv_dead : listening c = false -> closed c = true
}.

Lemma inv_init : Inv init.
Proof.
  constructor; simpl; try discriminate; try constructor.
  intros _ _ n f H. now destruct n.
Qed.

Lemma NoDup_snoc : forall A (l : list A) x, NoDup (l ++ [x]) -> NoDup l /\ ~ In x l.
Proof.
  intros A l x H. split.
  - induction l; [constructor|]. simpl in H. inversion H; subst. constructor; auto.
    intros I. apply H2. apply in_or_app. auto.
  - induction l; simpl in *; auto. inversion H; subst. intros [->|I].
    + apply H2. apply in_or_app. right. simpl. auto.
    + now apply IHl.
Qed.

Lemma ids_nth : forall c n f, nth_error (futures c) n = Some f -> nth_error (ids c) n = Some (f_id f).
Proof. intros. unfold ids. now rewrite nth_error_map, H. Qed.

Lemma ids_inj : forall c n n' f f', NoDup (ids c) ->
  nth_error (futures c) n = Some f -> nth_error (futures c) n' = Some f' -> f_id f = f_id f' -> n = n'.
Proof.
  intros c n n' f f' ND E E' I.
  apply (NoDup_nth_error (ids c)); auto.
  - apply nth_error_Some. rewrite (ids_nth _ _ _ E). discriminate.
  - rewrite (ids_nth _ _ _ E), (ids_nth _ _ _ E'). congruence.
Qed.

Lemma table_futs_distinct : forall c, Inv c -> NoDup (map snd (table c)).
Proof.
  intros c I.
  assert (H : forall t, NoDup (dkeys t) ->
    (forall m n, In (m, n) t -> exists f, nth_error (futures c) n = Some f /\ f_id f = m) ->
    NoDup (map snd t)).
  { induction t as [|[m n] t IH]; intros ND P; [constructor|].
    simpl. inversion ND as [|? ? ND1 ND2]; subst. constructor.
    - intros J. apply in_map_iff in J. destruct J as [[m' n'] [E J]]. simpl in E. subst n'.
      destruct (P m n) as [f [F1 F2]]; [left; auto|].
      destruct (P m' n) as [f' [F1' F2']]; [right; auto|].
      rewrite F1 in F1'. inversion F1'; subst. apply ND1.
      replace (f_id f') with (fst (f_id f', n)) by reflexivity. apply in_map. auto.
    - apply IH; auto. intros; apply P; right; auto. }
  apply H; [apply inv_nodup; auto|].
  intros m n J. apply inv_table; auto. apply In_dget; auto. apply inv_nodup; auto.
Qed.

Lemma on_exception_inv : forall c e c', Inv c -> listening c = true -> c' = on_exception c e -> Inv c'.
Proof.
  intros c e c' I L ->. unfold on_exception.
  destruct (fail_all (futures c) (table c) e) as [fs ok] eqn:E.
  constructor; simpl.
  - constructor.
  - discriminate.
  - intros Lo ND n f N P. exfalso.
    rewrite L in Lo. simpl in Lo. subst ok.
    destruct (fail_all_nth _ _ _ _ _ _ _ E N) as [H|[f0 [H1 [H2 H3]]]].
    + assert (D : dget (table c) (f_id f) = Some n).
      { eapply inv_pending; eauto. unfold ids in *. simpl in ND.
        now rewrite (fail_all_ids _ _ _ _ _ E) in ND. }
      assert (done f = true).
      { eapply fail_all_done; eauto. apply dget_In; eauto. }
      unfold done in H0. rewrite P in H0. discriminate.
    + subst f. simpl in P. discriminate.
  - intros Lo. rewrite L in Lo. simpl in Lo. subst ok. simpl. apply orb_true_r.
Qed.

(** Updating one future and removing its key keeps the invariant. *)
Lemma pop_inv : forall c m n s cl,
  Inv c -> listening c = true -> dget (table c) m = Some n -> s <> Pending ->
  Inv (Caller (set_state (futures c) n s) (ddel (table c) m) true cl).
Proof.
  intros c m n s cl I L D S. constructor; simpl.
  - apply NoDup_ddel, inv_nodup; auto.
  - intros m' n' D'. rewrite dget_ddel in D'. destruct (Nat.eqb_spec m m'); [discriminate|].
    destruct (inv_table _ I _ _ D') as [f [F1 F2]]. rewrite set_state_nth, F1.
    eexists; split; eauto. now destruct (Nat.eqb n n').
  - intros _ ND n' f N P. unfold ids in ND. simpl in ND. rewrite set_state_ids in ND.
    rewrite set_state_nth in N. destruct (nth_error (futures c) n') as [f0|] eqn:E; [|discriminate].
    destruct (Nat.eqb_spec n n').
    + inversion N; subst f. simpl in P. congruence.
    + inversion N; subst f0. pose proof (inv_pending _ I L ND _ _ E P) as Q.
      rewrite dget_ddel. destruct (Nat.eqb_spec m (f_id f)); auto.
      subst m. rewrite D in Q. congruence.
  - discriminate.
Qed.

Lemma pop_inv_done : forall c m n f cl,
  Inv c -> listening c = true -> dget (table c) m = Some n ->
  nth_error (futures c) n = Some f -> done f = true ->
  Inv (Caller (futures c) (ddel (table c) m) true cl).
Proof.
  intros c m n f cl I L D F Dn.
  replace (futures c) with (set_state (futures c) n (f_state f)).
  - apply pop_inv; auto. intros E. unfold done in Dn. rewrite E in Dn. discriminate.
  - apply nth_error_ext. intros k. rewrite set_state_nth.
    destruct (nth_error (futures c) k) as [f0|] eqn:E; auto.
    destruct (Nat.eqb_spec n k); subst; auto. rewrite F in E. inversion E; subst. now destruct f0.
Qed.

Lemma dead_inv : forall c fs t, Inv c -> length fs = length (futures c) ->
  map f_id fs = map f_id (futures c) ->
  NoDup (dkeys t) -> (forall m n, dget t m = Some n -> dget (table c) m = Some n) ->
  Inv (Caller fs t false true).
Proof.
  intros c fs t I L E ND S. constructor; simpl; auto; try discriminate.
  intros m n D. apply S in D. destruct (inv_table _ I _ _ D) as [f [F1 F2]].
  destruct (nth_error fs n) as [f'|] eqn:F.
  - exists f'. split; auto. assert (nth_error (map f_id fs) n = nth_error (map f_id (futures c)) n) by now rewrite E.
    rewrite !nth_error_map, F, F1 in H. simpl in H. congruence.
  - apply nth_error_None in F. assert (n < length (futures c)) by (apply nth_error_Some; congruence). lia.
Qed.

Lemma step_inv : forall c ev, Inv c -> Inv (step c ev).
Proof.
  intros c ev I. destruct ev as [m| |n|m p|m| | | |]; simpl.
  - (* ECall *)
    destruct (closed c) eqn:Cl; auto. constructor; simpl.
    + apply NoDup_dset, inv_nodup; auto.
    + intros m' n D. rewrite dget_dset in D. destruct (Nat.eqb_spec m m').
      * inversion D; subst. exists (Fut m' Pending). split; auto.
        rewrite nth_error_app2, Nat.sub_diag; auto.
      * destruct (inv_table _ I _ _ D) as [f [F1 F2]]. exists f. split; auto.
        rewrite nth_error_app1; auto. apply nth_error_Some. congruence.
    + intros L ND n f N P. unfold ids in ND. simpl in ND. rewrite map_app in ND. simpl in ND.
      destruct (NoDup_snoc _ _ _ ND) as [ND1 ND2].
      destruct (Nat.lt_ge_cases n (length (futures c))) as [Ln|Ln].
      * rewrite nth_error_app1 in N by auto. rewrite dget_dset.
        destruct (Nat.eqb_spec m (f_id f)).
        -- exfalso. apply ND2. subst m. apply in_map_iff. exists f. split; auto.
           eapply nth_error_In; eauto.
        -- eapply inv_pending; eauto.
      * rewrite nth_error_app2 in N by auto. destruct (n - length (futures c)) eqn:E.
        -- simpl in N. inversion N; subst f. simpl. rewrite dget_dset, Nat.eqb_refl. f_equal. lia.
        -- simpl in N. destruct n0; discriminate.
    + intros L. pose proof (inv_dead _ I L). congruence.
  - (* ESendFailed *) destruct I; constructor; auto.
  - (* ECancel *)
    destruct (nth_error (futures c) n) as [f|] eqn:F; auto. destruct (done f) eqn:Dn; auto.
    constructor; simpl.
    + apply inv_nodup; auto.
    + intros m' n' D'. destruct (inv_table _ I _ _ D') as [f' [F1 F2]]. rewrite set_state_nth, F1.
      eexists; split; eauto. now destruct (Nat.eqb n n').
    + intros L ND n' f' N P. unfold ids in ND. simpl in ND. rewrite set_state_ids in ND.
      rewrite set_state_nth in N. destruct (nth_error (futures c) n') as [f0|] eqn:E; [|discriminate].
      destruct (Nat.eqb_spec n n').
      * inversion N; subst f'. simpl in P. congruence.
      * inversion N; subst f0. eapply inv_pending; eauto.
    + apply inv_dead; auto.
  - (* EReply *)
    destruct (listening c) eqn:L; auto.
    destruct (dget (table c) m) as [n|] eqn:D.
    + destruct (inv_table _ I _ _ D) as [f [F1 F2]]. rewrite F1.
      destruct (done f) eqn:Dn.
      * eapply pop_inv_done; eauto.
      * apply pop_inv; auto. discriminate.
    + eapply on_exception_inv; eauto.
  - (* EDeserFailed *)
    destruct (listening c) eqn:L; auto.
    destruct (dget (table c) m) as [n|] eqn:D.
    + destruct (set_exception (futures c) n ExDeserialize) as [fs|] eqn:E.
      * apply set_exception_inv in E. destruct E; subst. apply pop_inv; auto. discriminate.
      * eapply dead_inv; eauto.
        -- apply NoDup_ddel, inv_nodup; auto.
        -- intros m' n' D'. rewrite dget_ddel in D'. destruct (Nat.eqb m m'); congruence.
    + eapply dead_inv; eauto. apply inv_nodup; auto.
  - (* ELost *)
    destruct (listening c) eqn:L; auto.
    pose proof (on_exception_inv c ExServerClosed _ I L eq_refl) as J.
    destruct J; constructor; auto.
  - destruct (listening c) eqn:L; auto. eapply on_exception_inv; eauto.
  - destruct I; constructor; auto.
  - destruct (listening c && closed c) eqn:L; auto.
    destruct (fail_all (futures c) (table c) ExServerClosed) as [fs ok] eqn:E.
    eapply dead_inv; eauto.
    + eapply fail_all_length; eauto.
    + eapply fail_all_ids; eauto.
    + constructor.
    + discriminate.
Qed.

Lemma run_app : forall c a b, run c (a ++ b) = run (run c a) b.
Proof. intros. apply fold_left_app. Qed.

Lemma run_inv : forall evs c, Inv c -> Inv (run c evs).
Proof.
  induction evs as [|e evs IH]; simpl; intros c I; auto.
  apply IH, step_inv, I.
Qed.

(** ** How one step changes one future *)

Lemma fail_all_nth_fwd : forall t fs e fs' b k f,
  fail_all fs t e = (fs', b) -> nth_error fs k = Some f ->
  nth_error fs' k = Some f \/ (f_state f = Pending /\ nth_error fs' k = Some (Fut (f_id f) (Failed e))).
Proof.
  intros t fs e fs' b k f E N.
  assert (L : k < length fs') by (rewrite (fail_all_length _ _ _ _ _ E); apply nth_error_Some; congruence).
  apply nth_error_Some in L. destruct (nth_error fs' k) as [f'|] eqn:N'; [|congruence].
  destruct (fail_all_nth _ _ _ _ _ _ _ E N') as [H|[f0 [H1 [H2 H3]]]].
  - left. congruence.
  - right. rewrite N in H1. inversion H1; subst. auto.
Qed.

Lemma on_exception_nth : forall c e k f, nth_error (futures c) k = Some f ->
  nth_error (futures (on_exception c e)) k = Some f \/
  (f_state f = Pending /\ nth_error (futures (on_exception c e)) k = Some (Fut (f_id f) (Failed e))).
Proof.
  intros. unfold on_exception. destruct (fail_all (futures c) (table c) e) as [fs b] eqn:E. simpl.
  eapply fail_all_nth_fwd; eauto.
Qed.

Lemma step_nth : forall c ev k f, Inv c -> nth_error (futures c) k = Some f ->
  exists s, nth_error (futures (step c ev)) k = Some (Fut (f_id f) s) /\
    (s = f_state f \/
     (f_state f = Pending /\
       ((exists e, s = Failed e) \/ (s = Cancelled /\ ev = ECancel k) \/
        (exists p, s = Result (f_id f) p /\ ev = EReply (f_id f) p)))).
Proof.
  intros c ev k f I N.
  assert (Same : exists s, nth_error (futures c) k = Some (Fut (f_id f) s) /\ (s = f_state f \/
     (f_state f = Pending /\
       ((exists e, s = Failed e) \/ (s = Cancelled /\ ev = ECancel k) \/
        (exists p, s = Result (f_id f) p /\ ev = EReply (f_id f) p))))).
  { exists (f_state f). split; auto. rewrite N. now destruct f. }
  assert (Exc : forall e, exists s, nth_error (futures (on_exception c e)) k = Some (Fut (f_id f) s) /\ (s = f_state f \/
     (f_state f = Pending /\
       ((exists e, s = Failed e) \/ (s = Cancelled /\ ev = ECancel k) \/
        (exists p, s = Result (f_id f) p /\ ev = EReply (f_id f) p))))).
  { intros e. destruct (on_exception_nth c e k f N) as [H|[H1 H2]].
    - exists (f_state f). split; auto. rewrite H. now destruct f.
    - exists (Failed e). split; auto. right. split; auto. left. eauto. }
  destruct ev as [m| |n|m p|m| | | |]; cbn [step]; auto.
  - destruct (closed c); auto. cbn [futures].
    destruct Same as [s [E1 E2]]. exists s. split; auto.
    rewrite nth_error_app1; auto. apply nth_error_Some. congruence.
  - destruct (nth_error (futures c) n) as [f0|] eqn:F; auto. destruct (done f0) eqn:Dn; auto.
    cbn [futures]. rewrite set_state_nth, N. destruct (Nat.eqb_spec n k).
    + subst n. rewrite N in F. inversion F; subst f0. exists Cancelled. split; auto. right.
      unfold done in Dn. destruct (f_state f); try discriminate. split; auto.
    + exists (f_state f). split; auto. now destruct f.
  - destruct (listening c); auto. destruct (dget (table c) m) as [n|] eqn:D; auto.
    destruct (inv_table _ I _ _ D) as [f0 [F1 F2]]. rewrite F1. destruct (done f0) eqn:Dn; auto.
    cbn [futures]. rewrite set_state_nth, N. destruct (Nat.eqb_spec n k).
    + subst n. rewrite N in F1. inversion F1; subst f0. subst m. exists (Result (f_id f) p).
      split; auto. right. unfold done in Dn. destruct (f_state f); try discriminate.
      split; auto. right. right. eauto.
    + exists (f_state f). split; auto. now destruct f.
  - destruct (listening c); auto. destruct (dget (table c) m) as [n|] eqn:D; auto.
    destruct (set_exception (futures c) n ExDeserialize) as [fs|] eqn:E; auto.
    destruct (set_exception_inv _ _ _ _ E) as [S P]. subst fs. cbn [futures].
    rewrite set_state_nth, N. destruct (Nat.eqb_spec n k).
    + subst n. exists (Failed ExDeserialize). split; auto. right. split; eauto.
    + exists (f_state f). split; auto. now destruct f.
  - destruct (listening c); auto. exact (Exc ExServerClosed).
  - destruct (listening c); auto.
  - destruct (listening c && closed c); auto.
    destruct (fail_all (futures c) (table c) ExServerClosed) as [fs ok] eqn:E. cbn [futures].
    destruct (fail_all_nth_fwd _ _ _ _ _ _ _ E N) as [H|[H1 H2]].
    + exists (f_state f). split; auto. rewrite H. now destruct f.
    + exists (Failed ExServerClosed). split; auto. right. split; eauto.
Qed.

(** New futures appear only by ECall and start Pending. *)
Lemma step_nth_new : forall c ev k f, Inv c -> nth_error (futures c) k = None ->
  nth_error (futures (step c ev)) k = Some f -> f_state f = Pending /\ ev = ECall (f_id f).
Proof.
  intros c ev k f I N N'.
  assert (Len : forall l, length l = length (futures c) -> nth_error l k = Some f -> False).
  { intros l L E. apply nth_error_None in N. assert (k < length l) by (apply nth_error_Some; congruence). lia. }
  assert (Exc : forall e, nth_error (futures (on_exception c e)) k = Some f -> False).
  { intros e. unfold on_exception. destruct (fail_all (futures c) (table c) e) as [fs b] eqn:E. simpl.
    apply Len. eapply fail_all_length; eauto. }
  destruct ev as [m| |n|m p|m| | | |]; cbn [step] in N'.
  - destruct (closed c); [congruence|]. cbn [futures] in N'. apply nth_error_None in N.
    rewrite nth_error_app2 in N' by lia. destruct (k - length (futures c)); simpl in N'.
    + inversion N'; subst. auto.
    + destruct n; discriminate.
  - exfalso; eapply Len; eauto.
  - exfalso. destruct (nth_error (futures c) n); [|congruence]. destruct (done f0); [congruence|].
    eapply Len; [|exact N']. apply set_state_length.
  - exfalso. destruct (listening c); [|congruence]. destruct (dget (table c) m); [|eauto].
    destruct (nth_error (futures c) n); [|simpl in N'; congruence]. destruct (done f0); simpl in N'; [congruence|].
    eapply Len; [|exact N']. apply set_state_length.
  - exfalso. destruct (listening c); [|congruence]. destruct (dget (table c) m); [|simpl in N'; congruence].
    destruct (set_exception (futures c) n ExDeserialize) eqn:E; simpl in N'; [|congruence].
    apply set_exception_inv in E. destruct E; subst. eapply Len; [|exact N']. apply set_state_length.
  - exfalso. destruct (listening c); [|congruence]. simpl in N'. eauto.
  - exfalso. destruct (listening c); [|congruence]. eauto.
  - exfalso. simpl in N'. congruence.
  - exfalso. destruct (listening c && closed c); [|congruence].
    destruct (fail_all (futures c) (table c) ExServerClosed) eqn:E. simpl in N'.
    eapply Len; [|exact N']. eapply fail_all_length; eauto.
Qed.

Lemma done_stable : forall evs c k f, Inv c ->
  nth_error (futures c) k = Some f -> done f = true -> nth_error (futures (run c evs)) k = Some f.
Proof.
  induction evs as [|ev evs IH]; simpl; intros c k f I N D; auto.
  apply IH; auto using step_inv.
  destruct (step_nth c ev k f I N) as [s [E [->|[P _]]]].
  - rewrite E. now destruct f.
  - unfold done in D. rewrite P in D. discriminate.
Qed.

Lemma own_reply : forall evs n f m p,
  nth_error (futures (run init evs)) n = Some f -> f_state f = Result m p ->
  m = f_id f /\
  exists before after, evs = before ++ EReply m p :: after /\
    nth_error (futures (run init before)) n = Some (Fut m Pending).
Proof.
  intros evs. induction evs as [|ev evs IH] using rev_ind; intros n f m p N S.
  - simpl in N. now destruct n.
  - rewrite run_app in N. simpl in N.
    assert (I : Inv (run init evs)) by (apply run_inv, inv_init).
    destruct (nth_error (futures (run init evs)) n) as [f0|] eqn:N0.
    + destruct (step_nth _ ev n f0 I N0) as [s [E1 E2]]. rewrite E1 in N. inversion N; subst f.
      simpl in *. destruct E2 as [->|[P [[e ->]|[[-> _]|[q [-> ->]]]]]]; try discriminate.
      * destruct (IH n f0 m p N0 S) as [M [b [a [Eq Nb]]]]. split; auto.
        exists b, (a ++ [ev]). split; auto. rewrite Eq, <- app_assoc. reflexivity.
      * inversion S; subst. split; auto. exists evs, []. split; auto.
        rewrite N0. destruct f0; simpl in *; congruence.
    + destruct (step_nth_new _ ev n f I N0 N). congruence.
Qed.

(** One reply completes at most one call. *)
Lemma reply_completes_one : forall c m p k1 k2 f1 f2, Inv c ->
  nth_error (futures c) k1 = Some f1 -> f_state f1 = Pending ->
  nth_error (futures c) k2 = Some f2 -> f_state f2 = Pending ->
  nth_error (futures (step c (EReply m p))) k1 = Some (Fut m (Result m p)) ->
  nth_error (futures (step c (EReply m p))) k2 = Some (Fut m (Result m p)) ->
  k1 = k2.
Proof.
  intros c m p k1 k2 f1 f2 I N1 P1 N2 P2 R1 R2. cbn [step] in *.
  destruct (listening c).
  - destruct (dget (table c) m) as [n|] eqn:D.
    + destruct (inv_table _ I _ _ D) as [f [F1 F2]]. rewrite F1 in *. destruct (done f) eqn:Dn; cbn [futures] in *.
      * rewrite N1 in R1. inversion R1; subst. discriminate.
      * rewrite set_state_nth in R1, R2. rewrite N1 in R1. rewrite N2 in R2.
        destruct (Nat.eqb_spec n k1), (Nat.eqb_spec n k2); subst; auto;
        inversion R1; inversion R2; subst; discriminate.
    + destruct (on_exception_nth c ExOther k1 f1 N1) as [H|[_ H]]; rewrite H in R1; inversion R1; subst; discriminate.
  - rewrite N1 in R1. inversion R1; subst; discriminate.
Qed.

Lemma reply_delivered : forall c m p n, Inv c -> listening c = true -> NoDup (ids c) ->
  nth_error (futures c) n = Some (Fut m Pending) ->
  nth_error (futures (step c (EReply m p))) n = Some (Fut m (Result m p)).
Proof.
  intros c m p n I L ND N. pose proof (inv_pending _ I L ND _ _ N eq_refl) as D. simpl in D.
  cbn [step]. rewrite L, D, N. simpl. now rewrite set_state_nth, N, Nat.eqb_refl.
Qed.

(** ** Connection loss *)

Definition all_done (c : caller) : Prop := forall n f, nth_error (futures c) n = Some f -> done f = true.
Definition no_cancelled_waiting (c : caller) : Prop :=
  forall m n f, dget (table c) m = Some n -> nth_error (futures c) n = Some f -> f_state f = Pending.

Lemma fail_all_complete : forall c e, Inv c -> listening c = true -> NoDup (ids c) ->
  no_cancelled_waiting c ->
  exists fs, fail_all (futures c) (table c) e = (fs, true) /\
    forall n f, nth_error fs n = Some f -> done f = true.
Proof.
  intros c e I L ND NC.
  destruct (fail_all_ok (table c) (futures c) e) as [fs E].
  - now apply table_futs_distinct.
  - intros m n f J N. apply (NC m n f); auto. apply In_dget; auto. now apply inv_nodup.
  - exists fs. split; auto. intros n f N.
    destruct (fail_all_nth _ _ _ _ _ _ _ E N) as [H|[f0 [H1 [H2 H3]]]].
    + destruct (done f) eqn:Dn; auto. exfalso.
      assert (P : f_state f = Pending) by (unfold done in Dn; destruct (f_state f); congruence).
      assert (done f = true).
      { eapply fail_all_done; eauto. apply dget_In. eapply inv_pending; eauto. }
      congruence.
    + subst. reflexivity.
Qed.

Lemma lost_all_done : forall c, Inv c -> listening c = true -> NoDup (ids c) ->
  no_cancelled_waiting c -> all_done (step c ELost).
Proof.
  intros c I L ND NC n f N. cbn [step] in N. rewrite L in N. unfold on_exception in N.
  destruct (fail_all_complete c ExServerClosed I L ND NC) as [fs [E D]]. rewrite E in N. simpl in N. eauto.
Qed.

Lemma loop_end_all_done : forall c, Inv c -> listening c = true -> closed c = true -> NoDup (ids c) ->
  no_cancelled_waiting c -> all_done (step c ELoopEnd).
Proof.
  intros c I L C ND NC n f N. cbn [step] in N. rewrite L, C in N. cbn [andb] in N.
  destruct (fail_all_complete c ExServerClosed I L ND NC) as [fs [E D]]. rewrite E in N. simpl in N. eauto.
Qed.

Lemma calm_snoc : forall evs c ev, calm c (evs ++ [ev]) ->
  calm c evs /\ match ev with ECancel _ => False | EDeserFailed m => dget (table (run c evs)) m <> None | _ => True end.
Proof.
  induction evs as [|e evs IH]; simpl; intros c ev H.
  - destruct H; auto.
  - destruct H as [H1 H2]. destruct (IH _ _ H2). auto.
Qed.

Lemma step_ids_prefix : forall c ev, Inv c -> exists l, ids (step c ev) = ids c ++ l.
Proof.
  intros c ev I.
  assert (L : length (futures c) <= length (futures (step c ev))).
  { destruct (Nat.le_gt_cases (length (futures c)) (length (futures (step c ev)))) as [|G]; auto.
    exfalso. assert (Ex : nth_error (futures c) (length (futures (step c ev))) <> None) by (apply nth_error_Some; lia).
    destruct (nth_error (futures c) (length (futures (step c ev)))) as [f|] eqn:E; [|congruence].
    destruct (step_nth c ev _ f I E) as [s [E1 _]].
    assert (length (futures (step c ev)) < length (futures (step c ev))) by (apply nth_error_Some; congruence). lia. }
  exists (skipn (length (ids c)) (ids (step c ev))).
  rewrite <- (firstn_skipn (length (ids c)) (ids (step c ev))) at 1. f_equal.
  apply nth_error_ext. intros i. destruct (Nat.lt_ge_cases i (length (futures c))) as [Li|Li].
  - rewrite <- (firstn_skipn (length (ids c)) (ids (step c ev))) in *.
    assert (Ei : nth_error (futures c) i <> None) by (apply nth_error_Some; lia).
    destruct (nth_error (futures c) i) as [f|] eqn:E; [|congruence].
    destruct (step_nth c ev _ f I E) as [s [E1 _]].
    rewrite (ids_nth _ _ _ E).
    assert (Q : nth_error (ids (step c ev)) i = Some (f_id f)) by (rewrite (ids_nth _ _ _ E1); reflexivity).
    rewrite firstn_skipn.
    rewrite <- (firstn_skipn (length (ids c)) (ids (step c ev))) in Q.
    rewrite nth_error_app1 in Q; auto. unfold ids. rewrite firstn_length, !map_length. lia.
  - transitivity (@None nat).
    + apply nth_error_None. unfold ids. rewrite firstn_length, !map_length. lia.
    + symmetry. apply nth_error_None. unfold ids. rewrite map_length. lia.
Qed.

Lemma run_ids_nodup_prefix : forall evs c ev, Inv c -> NoDup (ids (step (run c evs) ev)) -> NoDup (ids (run c evs)).
Proof.
  intros evs c ev I ND. destruct (step_ids_prefix (run c evs) ev) as [l E].
  - now apply run_inv.
  - rewrite E in ND. clear E. induction (ids (run c evs)); [constructor|].
    simpl in ND. inversion ND; subst. constructor; auto. intros J. apply H1. apply in_or_app; auto.
Qed.

Lemma calm_state : forall evs, calm init evs -> NoDup (ids (run init evs)) ->
  no_cancelled_waiting (run init evs) /\
  (listening (run init evs) = false -> all_done (run init evs)).
Proof.
  intros evs. induction evs as [|ev evs IH] using rev_ind; intros Q ND.
  - split; intros; discriminate.
  - rewrite run_app in *. cbn [run fold_left] in *.
    fold (run init evs) in *.
    apply calm_snoc in Q. destruct Q as [Q1 Q2].
    assert (I : Inv (run init evs)) by (apply run_inv, inv_init).
    assert (ND' : NoDup (ids (run init evs))) by (eapply run_ids_nodup_prefix; eauto using inv_init).
    destruct (IH Q1 ND') as [NC DA]. clear IH.
    set (c := run init evs) in *.
    destruct ev as [m| |n|m p|m| | | |]; cbn [step]; try tauto.
    + destruct (closed c) eqn:Cl; auto. split; cbn [table futures listening].
      * intros m' n' f D N. cbn [table futures] in *. rewrite dget_dset in D.
        destruct (Nat.eqb_spec m m').
        -- inversion D; subst. rewrite nth_error_app2, Nat.sub_diag in N by lia.
           simpl in N. inversion N; reflexivity.
        -- destruct (inv_table _ I _ _ D) as [f' [F1 F2]].
           rewrite nth_error_app1 in N by (apply nth_error_Some; congruence). eapply NC; eauto.
      * intros L. pose proof (inv_dead _ I L). congruence.
    + destruct (listening c) eqn:L; auto.
      destruct (dget (table c) m) as [n|] eqn:D.
      * destruct (inv_table _ I _ _ D) as [f [F1 F2]]. rewrite F1.
        assert (P : f_state f = Pending) by (eapply NC; eauto). unfold done. rewrite P.
        split; cbn [table futures listening]; try discriminate.
        intros m' n' f' D' N. cbn [table futures] in *. rewrite dget_ddel in D'. destruct (Nat.eqb_spec m m'); [discriminate|].
        rewrite set_state_nth in N. destruct (nth_error (futures c) n') as [f0|] eqn:E; [|discriminate].
        destruct (Nat.eqb_spec n n').
        -- subst n'. destruct (inv_table _ I _ _ D') as [g [G1 G2]]. congruence.
        -- inversion N; subst. eapply NC; eauto.
      * unfold on_exception.
        destruct (fail_all_complete c ExOther I L ND' NC) as [fs [E Dn]]. rewrite E.
        split; cbn [table futures listening]; try (intros; discriminate).
        rewrite L; discriminate.
    + destruct (listening c) eqn:L; auto.
      destruct (dget (table c) m) as [n|] eqn:D; [|congruence].
      destruct (inv_table _ I _ _ D) as [f [F1 F2]].
      assert (P : f_state f = Pending) by (eapply NC; eauto).
      unfold set_exception. rewrite F1. unfold done. rewrite P.
      split; cbn [table futures listening]; try discriminate.
      intros m' n' f' D' N. cbn [table futures] in *. rewrite dget_ddel in D'. destruct (Nat.eqb_spec m m'); [discriminate|].
      rewrite set_state_nth in N. destruct (nth_error (futures c) n') as [f0|] eqn:E; [|discriminate].
      destruct (Nat.eqb_spec n n').
      * subst n'. destruct (inv_table _ I _ _ D') as [g [G1 G2]]. congruence.
      * inversion N; subst. eapply NC; eauto.
    + destruct (listening c) eqn:L; auto. unfold on_exception.
      destruct (fail_all_complete c ExServerClosed I L ND' NC) as [fs [E Dn]]. rewrite E.
      split; cbn [table futures listening]; try (intros; discriminate). rewrite L; discriminate.
    + destruct (listening c) eqn:L; auto. unfold on_exception.
      destruct (fail_all_complete c ExOther I L ND' NC) as [fs [E Dn]]. rewrite E.
      split; cbn [table futures listening]; try (intros; discriminate). rewrite L; discriminate.
    + destruct (listening c && closed c) eqn:LC; auto. apply andb_true_iff in LC. destruct LC as [L C].
      destruct (fail_all_complete c ExServerClosed I L ND' NC) as [fs [E Dn]]. rewrite E.
      split; cbn [table futures listening]; try (intros; discriminate). auto.
Qed.

Lemma dead_stuck : forall evs c k f, listening c = false -> closed c = true ->
  nth_error (futures c) k = Some f -> ~ In (ECancel k) evs ->
  nth_error (futures (run c evs)) k = Some f.
Proof.
  induction evs as [|ev evs IH]; simpl; intros c k f L C N NI; auto.
  apply IH; try tauto; destruct ev as [m| |n|m p|m| | | |]; cbn [step]; rewrite ?L, ?C; auto;
    cbn [andb futures closed listening]; auto.
  - destruct (nth_error (futures c) n); auto. destruct (done f0); auto.
  - destruct (nth_error (futures c) n); auto. destruct (done f0); auto.
  - destruct (nth_error (futures c) n) eqn:E; auto. destruct (done f0); auto.
    cbn [futures]. rewrite set_state_nth, N. destruct (Nat.eqb_spec n k); auto.
    subst. exfalso. apply NI. auto.
Qed.
