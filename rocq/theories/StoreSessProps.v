(** * C48 (bytes): a store call returns the server's answer to that very call

    How to read.  [run l s] is a connection's history: [l] lists what happened,
    [s] says where it has got to.  Calls and the requests the server reads are
    numbered from 0; [given s] are the answers the server has sent, each with the
    number of the request it answers, [got s] the answers returned to the caller,
    each with the number of the call that returned it. *)
From Coq Require Import Ascii String List Bool Arith NArith ZArith Lia.
From Verif Require Import PyStr StoreWireModel StoreWireProofs StoreWireProps StoreSessModel.
Import ListNotations.
Open Scope list_scope.
Open Scope nat_scope.

(** ** Specification *)
Definition own_answers (s : sess) : Prop := forall i a, In (i, a) (got s) -> In (i, a) (given s).
Definition no_call_raised (l : list what) : Prop := forall f, ~ In (Raising f) l.
(** The property, for every history *)
Definition claim : Prop := forall l s, run l s -> own_answers s.

(** ** Proofs *)
Lemma performs_inj r r' : query_type r = query_type r' -> performs r = performs r' -> r = r'.
Proof.
  assert (G : forall a b, map GetOne a = map GetOne b -> a = b).
  { induction a as [|x a IH]; intros [|y b] H; try discriminate; [reflexivity|].
    cbn [map] in H. injection H as H1 H2. f_equal; [exact H1|now apply IH]. }
  assert (S : forall a b, map (fun p : key * val => SetOne (fst p) (snd p)) a = map (fun p => SetOne (fst p) (snd p)) b -> a = b).
  { induction a as [|[x v] a IH]; intros [|[y v'] b] H; try discriminate; [reflexivity|].
    cbn [map fst snd] in H. injection H as H1 H2 H3. f_equal; [now subst|now apply IH]. }
  destruct r, r'; cbn [query_type performs]; intros Hq Hp; try discriminate Hq;
  try (injection Hp; intros; subst; reflexivity); f_equal; auto.
Qed.

Definition silent (r : request) : Prop := forall a, ~ answer_to r a.
Lemma silent_recv r : silent r <-> client_recv r = None.
Proof.
  rewrite C54_who_reads. unfold silent. split; [intros H (a & Ha); exact (H a Ha)|intros H a Ha; apply H; now exists a].
Qed.

Definition ok (r : request) : Prop := sendable r /\ r <> MultiGet [] /\ (forall k, r <> WatchKey k).
Lemma reply_not_empty r a : ok r -> answer_to r a -> reply_bytes a <> [].
Proof.
  intros (_ & Hn & _) Ha E. apply (f_equal (@List.length ascii)) in E. destruct a; cbn [reply_bytes] in E.
  - rewrite vec_length in E. discriminate.
  - unfold i64 in E. now rewrite le_length in E.
  - destruct b; discriminate.
  - discriminate.
  - destruct r; try contradiction. destruct Ha as [Hl _]. destruct vs as [|v vs].
    + destruct ks; [now apply Hn|discriminate].
    + cbn [map concat] in E. rewrite app_length, vec_length in E. discriminate.
Qed.

(** What the server reads is the oldest request not yet served. *)
Lemma serve_next r0 q r u' ra ra' : sendable r0 -> sendable r ->
  firstn 1 (wire_of r0 ++ q) = le 1 (query_type r) ->
  query (mkR (wire_of r0 ++ q) ra []) = (mkR u' ra' (performs r), Got tt) -> r = r0 /\ u' = q.
Proof.
  intros H0 Hr Hf Hq. destruct (query_reads r0 H0) as [Q _]. specialize (Q q ra []). rewrite Hq in Q.
  destruct Q as (_ & Ha & Hc). cbn in Ha, Hc. split; [|exact Ha]. apply performs_inj; [|exact Hc].
  unfold wire_of in Hf. cbn [le app firstn] in Hf. injection Hf as Hf.
  apply (f_equal N_of_ascii) in Hf. rewrite !N_ascii_embedding in Hf by (apply N.mod_lt; discriminate).
  destruct r, r0; try reflexivity; discriminate.
Qed.

Inductive phase (n : nat) : nat -> list request -> bytes -> list nat -> option (nat * request) -> list (nat * reply) -> Prop :=
| ph_idle q g : Forall silent q -> phase n (n + List.length q) q [] [] None g
| ph_sent q r g : Forall silent q -> ok r -> ~ silent r ->
    phase n (n + S (List.length q)) (q ++ [r]) [] [] (Some (n + List.length q, r)) g
| ph_parked ks c g : n = S c -> ok (Wait ks) -> phase n n [] [] [c] (Some (c, Wait ks)) g
| ph_answered r a c g : n = S c -> ok r -> answer_to r a -> In (c, a) g ->
    phase n n [] (reply_bytes a) [] (Some (c, r)) g.

Definition inv (s : sess) : Prop :=
  own_answers s /\ exists q, Forall ok q /\ up s = concat (map wire_of q) /\
  phase (served s) (calls s) q (down s) (parked s) (busy s) (given s).

Lemma recv_nothing r a m ra s v : ok r -> answer_to r a -> client_recv r = Some m -> m (mkR [] ra []) <> (s, Got v).
Proof.
  intros Hr Ha Hm E. destruct (client_recv_reads r a m Ha Hm) as (_ & M & _).
  specialize (M [] (reply_bytes a) ra [] eq_refl (reply_not_empty r a Hr Ha)). now rewrite E in M.
Qed.
Lemma has_answer r : ~ silent r -> exists a, answer_to r a.
Proof.
  intros H. rewrite silent_recv, C54_who_reads in H.
  destruct r; try (exfalso; apply H; intros (a & Ha); destruct a; exact Ha).
  - exists (RBytes []). reflexivity.
  - exists (RBytes []). reflexivity.
  - exists (RInt 0). cbn. lia.
  - exists (RReady true). exact I.
  - exists RStop. exact I.
  - exists (RInt 0). cbn. lia.
  - exists (RInt 0). cbn. lia.
  - exists (RList (map (fun _ => []) ks)). cbn. rewrite map_length. split; [reflexivity|].
    apply Forall_forall. intros x Hx. apply in_map_iff in Hx as (y & <- & _). reflexivity.
Qed.
Lemma own_more s s' g : got s' = got s -> given s' = given s ++ g -> own_answers s -> own_answers s'.
Proof. intros E1 E2 H i a Hi. rewrite E1 in Hi. rewrite E2. apply in_app_iff. left. now apply H. Qed.

Lemma serve_head n c q d p b g r ra u' ra' :
  Forall ok q -> phase n c q d p b g -> sendable r ->
  firstn 1 (concat (map wire_of q)) = le 1 (query_type r) ->
  query (mkR (concat (map wire_of q)) ra []) = (mkR u' ra' (performs r), Got tt) ->
  d = [] /\ p = [] /\ exists q', q = r :: q' /\ u' = concat (map wire_of q') /\ ok r /\
  ((silent r /\ (forall g', phase (S n) c q' [] [] b g')) \/
   (~ silent r /\ q' = [] /\ b = Some (n, r) /\ c = S n)).
Proof.
  intros Hok Hph Hr Hf Hq.
  destruct q as [|r0 q]; [discriminate Hf|]. inversion Hok as [|? ? Ok0 Hok']; subst.
  cbn [map concat] in Hf, Hq. destruct (serve_next r0 _ r u' ra ra' (proj1 Ok0) Hr Hf Hq) as [-> ->].
  split; [|split].
  1,2: inversion Hph; reflexivity.
  exists q. split; [reflexivity|]. split; [reflexivity|]. split; [exact Ok0|].
  inversion Hph as [q1 g1 Hs|q1 r1 g1 Hs Ok1 Hn|ks c1 g1 En Ok1|r1 a1 c1 g1 En Ok1 Ha Hi]; subst.
  - left. inversion Hs; subst. split; [assumption|]. intros g'. replace (n + List.length (r0 :: q)) with (S n + List.length q) by (cbn; lia).
    now apply ph_idle.
  - destruct q1 as [|x q1].
    + cbn in H0. injection H0 as -> <-. right. split; [exact Hn|]. split; [reflexivity|]. cbn. rewrite Nat.add_0_r.
      split; [reflexivity|lia].
    + cbn in H0. injection H0 as -> <-. inversion Hs; subst. left. split; [assumption|]. intros g'.
      cbn [List.length]. replace (n + S (S (List.length q1))) with (S n + S (List.length q1)) by lia.
      replace (n + S (List.length q1)) with (S n + List.length q1) by lia. now apply ph_sent.
Qed.

Lemma inv_step k s s' : (forall f, k <> Raising f) -> step k s s' -> inv s -> inv s'.
Proof.
  intros Hk Hs (Ho & q & Hok & Hup & Hph). destruct Hs; cbn [up down calls served parked busy given got] in *; subst u.
  - (* call *)
    split; [exact Ho|]. apply client_send_spec in H2. cbv iota in H2. subst w.
    assert (Okr : ok r) by (split; auto).
    exists (q ++ [r]). split; [apply Forall_app; auto|]. split; [now rewrite map_app, concat_app; cbn [map concat]; rewrite app_nil_r|].
    cbn. inversion Hph as [q1 g1 Hsil| | |]; subst.
    destruct (client_recv r) as [m|] eqn:Em.
    + replace (S (n + List.length q)) with (n + S (List.length q)) by lia. apply ph_sent; [exact Hsil|exact Okr|].
      rewrite silent_recv. congruence.
    + replace (S (n + List.length q)) with (n + List.length (q ++ [r])) by (rewrite app_length; cbn; lia).
      apply ph_idle. apply Forall_app. split; [exact Hsil|]. constructor; [|constructor]. now apply silent_recv.
  - (* answer *)
    destruct (serve_head _ _ _ _ _ _ _ _ _ _ _ Hok Hph H H0 H1) as (-> & -> & q' & -> & -> & Okr & [[Hsil _]|(Hn & -> & -> & ->)]).
    { now destruct (Hsil a). }
    split; [refine (own_more _ _ [(n, a)] _ _ Ho); reflexivity|].
    exists []. split; [constructor|]. split; [reflexivity|]. cbn.
    destruct (server_send_puts a) as [P _]. specialize (P [] sa). rewrite H3 in P. cbn [app] in P. subst w.
    apply ph_answered; auto. apply in_app_iff. right. now left.
  - (* silent *)
    destruct (serve_head _ _ _ _ _ _ _ _ _ _ _ Hok Hph H H0 H1) as (-> & -> & q' & -> & -> & Okr & [[Hsil Hp]|(Hn & _)]).
    2: { exfalso. apply Hn. exact H2. }
    split; [exact Ho|]. exists q'. inversion Hok; subst. split; [assumption|]. split; [reflexivity|]. cbn. apply Hp.
  - (* park *)
    destruct (serve_head _ _ _ _ _ _ _ (Wait ks) _ _ _ Hok Hph H H0 H1) as (-> & -> & q' & -> & -> & Okr & [[Hsil _]|(Hn & -> & -> & ->)]).
    { now destruct (Hsil RStop). }
    split; [exact Ho|]. exists []. split; [constructor|]. split; [reflexivity|]. cbn. now apply ph_parked.
  - (* wake *)
    inversion Hph as [| |ks c1 g1 En Ok1|]; subst; try (destruct p1; discriminate).
    match goal with E : [c1] = _ |- _ => rename E into Ep end.
    destruct p1 as [|x p1]; [|destruct p1; discriminate]. cbn [app] in Ep. injection Ep as <- <-.
    split; [refine (own_more _ _ [(c1, RStop)] _ _ Ho); reflexivity|].
    exists []. split; [constructor|]. split; [reflexivity|]. cbn.
    destruct (server_send_puts RStop) as [P _]. specialize (P [] sa). rewrite H in P. cbn [app] in P. subst w.
    apply (ph_answered _ (Wait ks) RStop); auto; [exact I|]. apply in_app_iff. right. now left.
  - (* return *)
    inversion Hph as [|q1 r1 g1 Hsil Okr Hn|ks c1 g1 En Okr|r1 a1 c1 g1 En Okr Ha Hi]; subst.
    + exfalso. destruct (has_answer r Hn) as (a0 & Ha0). exact (recv_nothing r a0 m ra _ _ Okr Ha0 H H0).
    + exfalso. exact (recv_nothing (Wait ks) RStop m ra _ _ Okr I H H0).
    + destruct (client_recv_reads r a1 m Ha H) as (M & _). specialize (M [] ra []). rewrite app_nil_r, H0 in M.
      destruct M as (-> & Hd & _). cbn in Hd. subst d'.
      split.
      * intros j b Hj. cbn in Hj |- *. apply in_app_iff in Hj as [Hj|[Hj|[]]]; [now apply Ho|]. injection Hj as <- <-. exact Hi.
      * exists []. split; [constructor|]. split; [reflexivity|]. cbn.
        replace (S i) with (S i + @List.length request []) at 2 by (cbn; lia). now apply ph_idle.
  - exfalso. now apply (Hk f).
Qed.

Lemma inv_run l s : run l s -> no_call_raised l -> inv s.
Proof.
  intros Hr Hn. induction Hr as [|l s k s' Hr IH Hs].
  - split; [intros i a []|]. exists []. split; [constructor|]. split; [reflexivity|]. exact (ph_idle 0 [] [] (Forall_nil _)).
  - apply (inv_step k s s').
    + intros f ->. apply (Hn f). apply in_app_iff. right. now left.
    + exact Hs.
    + apply IH. intros f Hf. apply (Hn f). apply in_app_iff. now left.
Qed.

(** ** Theorems *)
(** As long as no call on this store object has raised, each call that returns
    returns the answer the server gave to the request of that call. *)
Theorem C48_own_answer_bytes_partial l s : run l s -> no_call_raised l -> own_answers s.
Proof. intros Hr Hn. exact (proj1 (inv_run l s Hr Hn)). Qed.

(** ... and it never stumbles over a left-over: between calls nothing is on its
    way to the client. *)
Theorem C48_quiet_between_calls_partial l s : run l s -> no_call_raised l -> busy s = None -> down s = [] /\ parked s = [].
Proof.
  intros Hr Hn Hb. destruct (inv_run l s Hr Hn) as (_ & q & _ & _ & Hp). rewrite Hb in Hp. inversion Hp; subst; auto.
Qed.

(** ** After a call has raised, the property fails *)
Module Demo.
  Definition K := lit "/k". Definition L := lit "/l".
  Definition ra := [Moved 1000; Moved 1000; Moved 1000; Moved 1000; Moved 1000; Moved 1000; Moved 1000].
  Ltac w := eapply run_step.
  Ltac calls q := eapply (s_call _ _ _ _ _ _ _ q ra); [repeat constructor; lia|discriminate|discriminate|vm_compute; reflexivity].
  Ltac parks ks := eapply (s_park _ _ _ _ _ _ _ _ ks ra); [repeat constructor|reflexivity|vm_compute; reflexivity].
  Ltac answers q a := eapply (s_serve _ _ _ _ _ _ _ _ q ra _ _ a ra); [repeat constructor; lia|reflexivity|vm_compute; reflexivity|cbn; lia|vm_compute; reflexivity].
  Ltac returns := eapply (s_return _ _ _ _ _ _ _ _ _ _ ra); [reflexivity|vm_compute; reflexivity].
  Ltac times_out := eapply (s_raise _ _ _ _ _ _ _ _ _ _ [TryAgain]); [reflexivity|vm_compute; reflexivity|auto].

  (** an ordinary history: set, wait that is answered later, add *)
  Example ordinary : exists l s, run l s /\ no_call_raised l /\ got s = [(1, RStop); (2, RInt 7)] /\ busy s = None.
  Proof.
    eexists _, _. split; [|split; [|split]].
    - w; [w; [w; [w; [w; [w; [w; [w; [w; [apply run_start|]|]|]|]|]|]|]|]|].
      + calls (Set_ L (lit "x")).
      + calls (Wait [K]).
      + eapply (s_serve_silent _ _ _ _ _ _ _ _ (Set_ L (lit "x")) ra); [repeat constructor; lia|reflexivity|vm_compute; reflexivity|].
        intros a Ha. destruct a; exact Ha.
      + parks [K].
      + eapply (s_wake _ _ _ _ [] 1 [] _ _ _ ra). vm_compute; reflexivity.
      + returns.
      + calls (Add L 3).
      + answers (Add L 3) (RInt 7).
      + returns.
    - intros f Hf. cbn in Hf. repeat (destruct Hf as [Hf|Hf]; [discriminate|]). exact Hf.
    - reflexivity.
    - reflexivity.
  Qed.
  (** [wait] on a key that is set only after the time-out leaves its answer in the
      socket; the [add] that follows takes it for the first byte of its own and
      returns 1280 instead of 5. *)
  Example late_answer_shifts_the_next : exists l s, run l s /\ got s = [(1, RInt 1280)] /\ given s = [(0, RStop); (1, RInt 5)].
  Proof.
    eexists _, _. split; [|split].
    - w; [w; [w; [w; [w; [w; [w; [apply run_start|]|]|]|]|]|]|].
      + calls (Wait [K]).
      + parks [K].
      + times_out.
      + eapply (s_wake _ _ _ _ [] 0 [] _ _ _ ra). vm_compute; reflexivity.
      + calls (Add L 5).
      + answers (Add L 5) (RInt 5).
      + returns.
    - reflexivity.
    - reflexivity.
  Qed.
  (** A second [wait] returns although its key has not been set. *)
  Example second_wait_returns_early : exists l s, run l s /\ got s = [(1, RStop)] /\ given s = [(0, RStop)] /\ parked s = [1].
  Proof.
    eexists _, _. split; [|split; [|split]].
    - w; [w; [w; [w; [w; [w; [w; [apply run_start|]|]|]|]|]|]|].
      + calls (Wait [K]).
      + parks [K].
      + times_out.
      + calls (Wait [L]).
      + parks [L].
      + eapply (s_wake _ _ _ _ [] 0 [1] _ _ _ ra). vm_compute; reflexivity.
      + returns.
    - reflexivity.
    - reflexivity.
    - reflexivity.
  Qed.
End Demo.

(** One time-out is enough: a call after it may return a value the server never
    sent, and a [wait] may return before its key is set. *)
Theorem C48_own_answer_bytes_refuted : ~ claim.
Proof.
  intros H. destruct Demo.late_answer_shifts_the_next as (l & s & Hr & Hg & Hv).
  specialize (H l s Hr 1 (RInt 1280)). rewrite Hg, Hv in H. destruct H as [H|[H|[]]]; [now left|discriminate|discriminate].
Qed.
Theorem C48_wait_returns_early_refuted :
  ~ (forall l s, run l s -> forall i, In (i, RStop) (got s) -> ~ In i (parked s)).
Proof.
  intros H. destruct Demo.second_wait_returns_early as (l & s & Hr & Hg & _ & Hp).
  apply (H l s Hr 1); [rewrite Hg|rewrite Hp]; now left.
Qed.
(** Without a raised call it does not: what has returned was not parked. *)
Lemma got_before l s : run l s -> no_call_raised l -> forall i a, In (i, a) (got s) -> i < calls s /\ (forall r, busy s <> Some (i, r)).
Proof.
  intros Hr Hn. induction Hr as [|l s k s' Hr IH Hs]; [intros i a []|].
  assert (Hn' : no_call_raised l) by (intros f Hf; apply (Hn f); apply in_app_iff; now left).
  specialize (IH Hn'). destruct (inv_run l s Hr Hn') as (_ & q & _ & _ & Hph).
  destruct Hs; cbn [got busy calls parked] in *; intros j v Hj; try (now apply IH in Hj).
  - apply IH in Hj as [Hj _]. split; [lia|]. intros r0 E. destruct (client_recv r); [|discriminate]. injection E as E _. lia.
  - apply in_app_iff in Hj as [Hj|[Hj|[]]].
    + apply IH in Hj as [Hj _]. split; [exact Hj|discriminate].
    + injection Hj as <- <-. split; [|discriminate]. cbn [served busy] in Hph. inversion Hph; subst; lia.
Qed.
Theorem C48_wait_returns_when_answered_partial l s : run l s -> no_call_raised l ->
  forall i, In (i, RStop) (got s) -> ~ In i (parked s).
Proof.
  intros Hr Hn i Hi Hp. destruct (got_before l s Hr Hn i RStop Hi) as [_ Hb].
  destruct (inv_run l s Hr Hn) as (_ & q & _ & _ & Hph).
  inversion Hph as [q1 g1 Hs E1 E2 E3 E4 E5|q1 r g1 Hs Ok1 Hn1 E1 E2 E3 E4 E5|ks c g1 En Ok1 E1 E2 E3 E4 E5|r a c g1 En Ok1 Ha Hi1 E1 E2 E3 E4 E5].
  - rewrite <- E4 in Hp. exact Hp.
  - rewrite <- E4 in Hp. exact Hp.
  - rewrite <- E4 in Hp. destruct Hp as [<-|[]]. apply (Hb (Wait ks)). congruence.
  - rewrite <- E4 in Hp. exact Hp.
Qed.

Print Assumptions C48_own_answer_bytes_partial.
Print Assumptions C48_quiet_between_calls_partial.
Print Assumptions C48_wait_returns_when_answered_partial.
Print Assumptions C48_own_answer_bytes_refuted.
Print Assumptions C48_wait_returns_early_refuted.
