(** * C48: a client of the rendezvous store reads the answers to its own requests

    How to read.  [received c h] is everything the server has sent on the current
    connection of [c], in order: it is the byte stream the client reads from.
    [asked c h] are the requests processed on that connection, each with the
    contents of the store at that time.  A client reads replies in the order of
    its requests, so it gets its own answers if [received] is the concatenation
    of one [full_answer] for each request; only for the newest request, if it
    is a wait, may the answer be still to come. *)
From Coq Require Import String Ascii List Bool Arith ZArith Lia.
From Verif Require Import Dict PyStr SizeModel StoreModel StoreProps StoreWait StoreWaitProps StoreTalk.
Import ListNotations.
Open Scope list_scope.
Open Scope nat_scope.

(** ** Specification *)
Definition sent_to (c : sock) (e : entry) : list msg := map snd (filter (fun cm => fst cm =? c) (sent e)).

Fixpoint received (c : sock) (h : list entry) : list msg :=
  match h with
  | [] => []
  | e :: h' =>
      match ev e, res e with
      | Connect c', _ | Hangup c', _ | Request c' _ _, Refused =>
          if c' =? c then [] else received c h' ++ sent_to c e
      | _, _ => received c h' ++ sent_to c e
      end
  end.

Fixpoint asked (c : sock) (h : list entry) : list (contents * request) :=
  match h with
  | [] => []
  | e :: h' =>
      match ev e, res e with
      | Connect c', _ | Hangup c', _ | Request c' _ _, Refused => if c' =? c then [] else asked c h'
      | Request c' r _, _ => if c' =? c then asked c h' ++ [(contents_of h', r)] else asked c h'
      end
  end.

Definition full_answer (q : contents * request) (a : list msg) : Prop :=
  match snd q with
  | Wait _ => a = [MStop]
  | r => replies (fst q) r a
  end.

(** [c]'s requests and what it received fit. *)
Definition in_step (qs : list (contents * request)) (ms : list msg) : Prop :=
  exists ans, ms = concat ans /\
    (Forall2 full_answer qs ans \/
     exists qs' m ks, qs = qs' ++ [(m, Wait ks)] /\ Forall2 full_answer qs' ans).

Definition C48_claim (ok : list entry -> Prop) : Prop :=
  forall s h c, reach s h -> ok h -> ~ asked_to_watch c h -> in_step (asked c h) (received c h).

(** ** Proofs *)
Lemma fits_wait c r out w : ~ w c -> Forall (fits c w) out -> match r with Wait _ => True | _ => False end -> to c out = direct c r out.
Proof.
  intros NW F K. unfold to, direct. f_equal. induction F as [|[x m] l H F IH]; auto.
  cbn [filter fst snd]. unfold fits in H. cbn [fst snd] in H. destruct (Nat.eqb_spec x c) as [->|]; cbn [andb]; [|exact IH].
  assert (IR : is_reply r m = true).
  { destruct m; auto; try (elim NW; assumption). destruct r; auto; destruct K. }
  rewrite IR. f_equal. exact IH.
Qed.

Lemma fits_rev c w out : Forall (fits c w) out -> Forall (fits c w) (rev out).
Proof. apply Forall_rev. Qed.

Lemma not_asked_older c e h : ~ asked_to_watch c (e :: h) -> ~ asked_to_watch c h.
Proof. intros N (k & d & st & out & I). apply N. exists k, d, st, out. right. exact I. Qed.

Lemma Forall2_snoc {A B} (R : A -> B -> Prop) l l' x y : Forall2 R l l' -> R x y -> Forall2 R (l ++ [x]) (l' ++ [y]).
Proof. intros F H. apply Forall2_app; auto. Qed.

Definition Inv (c : sock) (h : list entry) : Prop :=
  exists ans, received c h = concat ans /\
    ((pending c h = [] /\ Forall2 full_answer (asked c h) ans) \/
     (pending c h <> [] /\ exists qs' m ks, asked c h = qs' ++ [(m, Wait ks)] /\ Forall2 full_answer qs' ans)).

Lemma step_inv s h c : reach s h -> tidy h -> ~ asked_to_watch c h -> Inv c h.
Proof.
  induction 1 as [|s h e s' x R IH P ST]; intros T NW.
  - exists []. split; [reflexivity|]. left. split; [reflexivity|constructor].
  - assert (R' : reach s' (x :: h)) by (econstructor; eauto).
    destruct (invariant _ _ R' T) as (HJ' & _ & STOPS).
    assert (NWh := not_asked_older _ _ _ NW).
    assert (T' := T). destruct T as (T & NF & PO). specialize (IH T NWh).
    destruct (invariant _ _ R T) as (HJ & EQ & _).
    assert (NWS : ~ watching s c) by (intros W; apply NWh; eapply watching_asked; eauto).
    destruct (explain s h R) as (ND & _).
    destruct e as [c0|c0|c0 r dead]; cbn [step] in ST.
    + inversion ST; subst. unfold Inv. cbn [received asked pending ev res]. destruct (Nat.eqb_spec c0 c).
      * exists []. split; [reflexivity|]. left. split; [reflexivity|constructor].
      * change (sent_to c _) with (@nil msg). rewrite app_nil_r. exact IH.
    + inversion ST; subst. unfold Inv. cbn [received asked pending ev res]. destruct (Nat.eqb_spec c0 c).
      * exists []. split; [reflexivity|]. left. split; [reflexivity|constructor].
      * change (sent_to c _) with (@nil msg). rewrite app_nil_r. exact IH.
    + destruct (handle dead c0 r (s, [])) as [[s1 o1] st] eqn:E.
      destruct (correct_handle dead c0 r _ _ _ _ _ (contents_of h) ND EQ E) as (ND1 & new0 & O & H). rewrite app_nil_r in O. subst new0.
      assert (FT : Forall (fits c0 (watching s)) o1 \/ (exists k, r = WatchKey k) /\ Forall (fun cm => fst cm = c0 /\ snd cm = MRegistered) o1).
      { assert (D : (exists k, r = WatchKey k) \/ forall k, r <> WatchKey k) by (destruct r; eauto; right; discriminate).
        destruct D as [(k & ->)|NWK].
        - right. split; eauto. cbn [handle] in E. apply class_watch in E. destruct E as (_ & new & -> & F). now rewrite app_nil_r.
        - left. apply class_handle in E; auto. destruct E as (_ & new & -> & F). now rewrite app_nil_r. }
      destruct st; inversion ST; subst; [| |cbn [res] in NF; congruence]; cbn [ev res] in PO; destruct PO as [PC NC].
      * (* completed *)
        destruct H as [_ RP]. unfold Inv. cbn [received asked ev res]. specialize (STOPS c). cbn [sent due ev res] in STOPS.
        change (sent_to c (mkEntry (Request c0 r dead) Done (rev o1))) with (to c (rev o1)).
        destruct (Nat.eqb_spec c0 c) as [->|NE].
        -- assert (F : Forall (fits c (watching s)) o1).
           { destruct FT as [F|((k & ->) & _)]; auto. elim NW. exists k, dead, Done, (rev o1). left. reflexivity. }
           destruct IH as (ans & RE & [(_ & A)|(X & _)]); [|contradiction]. rewrite RE.
           assert (WC : (exists ks, r = Wait ks) \/ match r with Wait _ => False | _ => True end) by (destruct r; eauto).
           destruct WC as [(ks & ->)|NWT].
           ++ rewrite (fits_wait c (Wait ks) (rev o1) (watching s) NWS (fits_rev _ _ _ F) I).
              cbn [pending ev res]. rewrite Nat.eqb_refl. cbn [replies] in RP.
              destruct (filter (gone (contents_of h)) ks) as [|k l] eqn:FE.
              ** destruct RP as [(_ & ->)|(N & _)].
                 --- exists (ans ++ [[MStop]]). rewrite concat_app. split; auto. left. split; auto.
                     apply Forall2_snoc; auto. reflexivity.
                 --- elim N. intros k I. unfold present. destruct (contents_of h k) eqn:CE; [eauto|].
                     assert (X : In k (filter (gone (contents_of h)) ks)) by (apply filter_In; split; auto; unfold gone; now rewrite CE).
                     rewrite FE in X. destruct X.
              ** destruct RP as [(AL & _)|(_ & ->)].
                 --- assert (X : In k (filter (gone (contents_of h)) ks)) by (rewrite FE; cbn; auto). apply filter_In in X.
                     destruct X as [X1 X2]. apply gone_spec in X2. elim X2. auto.
                 --- exists ans. rewrite app_nil_r. split; auto. right. split; [discriminate|]. eauto.
           ++ assert (S0 : stops c (rev o1) = 0) by (rewrite STOPS; destruct r; try reflexivity; destruct NWT).
              assert (K : keeps_replies r = true) by (destruct r; auto; destruct NWT).
              rewrite (to_own c r (rev o1) (watching s) NWS (fits_rev _ _ _ F) S0 K).
              exists (ans ++ [direct c r (rev o1)]). rewrite concat_app. cbn [concat]. rewrite app_nil_r. split; auto. left. split.
              ** cbn [pending ev res]. rewrite Nat.eqb_refl. destruct r; auto; destruct NWT.
              ** apply Forall2_snoc; auto. unfold full_answer. cbn [fst snd]. destruct r; auto; destruct NWT.
        -- assert (TO : to c (rev o1) = repeat MStop (stops c (rev o1))).
           { destruct FT as [F|(_ & F)].
             - apply (to_other c c0 _ (watching s)); auto using fits_rev.
             - apply (to_other c c0 _ (fun _ => False)); auto. apply Forall_rev. eapply Forall_impl; [|exact F].
               intros [y m] [E1 E2]. cbn in *. subst. reflexivity. }
           rewrite TO, STOPS. set (p' := pending c (mkEntry (Request c0 r dead) Done (rev o1) :: h)) in *.
           assert (PM : pending c h = [] -> p' = []).
           { intros PE. unfold p'. cbn [pending ev]. destruct (Nat.eqb_spec c0 c); [congruence|]. now rewrite PE. }
           destruct IH as (ans & RE & [(PE & A)|(PE & qs' & m & ks & QE & A)]); rewrite RE.
           ++ rewrite PE. cbn [nilb negb andb b2n repeat]. exists ans. rewrite app_nil_r. split; auto.
           ++ destruct (pending c h) as [|y l]; [congruence|]. cbn [nilb negb andb]. destruct p' as [|z l'] eqn:PE'; cbn [nilb b2n repeat].
              ** exists (ans ++ [[MStop]]). rewrite concat_app. split; auto. left. split; auto. rewrite QE.
                 apply Forall2_snoc; auto. reflexivity.
              ** exists ans. rewrite app_nil_r. split; auto. right. split; [discriminate|]. eauto.
      * (* refused *)
        unfold Inv. cbn [received asked pending ev res]. destruct (Nat.eqb_spec c0 c) as [->|NE].
        -- exists []. split; auto. left. split; [now destruct r|constructor].
        -- destruct (refused_unchanged dead c0 r s [] s1 o1 ND E) as (-> & new & OO & N). rewrite app_nil_r in OO. subst new.
           assert (TO : to c (rev o1) = []).
           { destruct FT as [F|(_ & F)].
             - rewrite (to_other c c0 _ (watching s)); auto using fits_rev. now rewrite stops_rev, N.
             - rewrite (to_other c c0 _ (fun _ => False)); auto; [now rewrite stops_rev, N|]. apply Forall_rev. eapply Forall_impl; [|exact F].
               intros [y m] [E1 E2]. cbn in *. subst. reflexivity. }
           change (sent_to c (mkEntry (Request c0 r dead) Refused (rev o1))) with (to c (rev o1)). rewrite TO, app_nil_r.
           assert (FP : filter (gone (contents_of h)) (pending c h) = pending c h).
           { rewrite (filter_ext_eq _ (absent s)) by (intros; now apply gone_absent).
             exact (after_same s s (fun c => pending c h) HJ (fun k H => H) c). }
           cbn [contents_of ev res]. rewrite FP. exact IH.
Qed.

(** ** The property *)
Theorem C48_answers_in_step_partial : C48_claim orderly.
Proof.
  intros s h c R O NW. apply orderly_tidy in O. destruct (step_inv s h c R O NW) as (ans & RE & H).
  exists ans. split; auto. destruct H as [(_ & A)|(_ & A)]; auto.
Qed.

(** ** Non-vacuity, and the refutation *)
(** Bytes on the wire of one-byte answers: enum values of lines 162-164. *)
Definition first_byte (m : msg) : option nat :=
  match m with
  | MStop => Some 0                          (* STOP_WAITING *)
  | MCheck true => Some 0                    (* READY *)
  | MCheck false => Some 1                   (* NOT_READY *)
  | _ => None
  end.
(** TCPStore::check (lines 1203-1222): reads one byte. *)
Definition client_check (unread : list msg) : option bool :=
  match unread with
  | m :: _ => match first_byte m with Some 0 => Some true | Some 1 => Some false | _ => None end
  | [] => None
  end.

Module TalkDemo.
  Import Demo WaitDemo.
  Definition es : list event :=
    [ Connect 5; Connect 6; Request 6 (Add 3 4) []; Request 6 (Wait [1; 2]) []; Request 5 (Set_ 2 (lit "v")) [];
      Request 5 (Add 1 3) []; Request 6 (Get 2) []; Request 6 (Check [1; 9]) [] ].
  Example demo : reach (fst (run init [] es)) (h es) /\ orderly (h es) /\ ~ asked_to_watch 6 (h es) /\
    map snd (asked 6 (h es)) = [Add 3 4; Wait [1; 2]; Get 2; Check [1; 9]] /\
    received 6 (h es) = [MValue 4; MStop; MBytes (lit "v"); MCheck false].
  Proof.
    split; [concrete es|]. split; [split; [pat|split; [rel|pla]]|]. split; [|split; reflexivity].
    intros (k & d & st & out & I). vm_compute in I. intuition discriminate.
  Qed.
  (** 6 waits for 1 and gives up; 5 sets 1; 6 checks 2, which does not exist. *)
  Definition es5 : list event :=
    [ Connect 5; Connect 6; Request 6 (Wait [1]) []; Request 5 (Set_ 1 (lit "v")) []; Request 6 (Check [2]) [] ].
  (** The same, but 6 gives up before 1 is set. *)
  Definition es6 : list event :=
    [ Connect 5; Connect 6; Request 6 (Wait [1]) []; Request 6 (Check [1; 2]) []; Request 6 (Add 3 1) [];
      Request 5 (Set_ 1 (lit "v")) []; Request 6 (Check [2]) [] ].
End TalkDemo.

(** The answer to a wait that was given up is read as the answer to the next
    question: the client reads nothing for the wait (it timed out), and
    [check] of a key that never existed answers yes. *)
Theorem C48_timeout_refuted : exists s h,
  reach s h /\ reliable h /\ plain h /\ ~ asked_to_watch 6 h /\
  (exists m m', asked 6 h = [(m, Wait [1]); (m', Check [2])] /\ m' 2 = None) /\
  client_check (received 6 h) = Some true.
Proof.
  exists (fst (Demo.run init [] TalkDemo.es5)), (WaitDemo.h TalkDemo.es5).
  split; [WaitDemo.concrete TalkDemo.es5|]. split; [WaitDemo.rel|]. split; [WaitDemo.pla|]. split; [|split; [|reflexivity]].
  - intros (k & d & st & out & I). vm_compute in I. intuition discriminate.
  - eexists _, _. split; [reflexivity|]. reflexivity.
Qed.

(** The claim itself fails without patience: 6 asks while its wait is open. *)
Theorem C48_impatient_refuted : ~ C48_claim (fun h => reliable h /\ plain h).
Proof.
  intros C. specialize (C (fst (Demo.run init [] TalkDemo.es6)) (WaitDemo.h TalkDemo.es6) 6).
  destruct C as (ans & E & [F|(qs & m & ks & Q & F)]).
  - WaitDemo.concrete TalkDemo.es6.
  - split; [WaitDemo.rel|WaitDemo.pla].
  - intros (k & d & st & out & I). vm_compute in I. intuition discriminate.
  - set (q := asked 6 (WaitDemo.h TalkDemo.es6)) in F. assert (QE : q = asked 6 (WaitDemo.h TalkDemo.es6)) by reflexivity.
    clearbody q. cbn in QE. subst q. inversion F as [|? a ? ? A _]; subst. unfold full_answer in A. cbn [snd] in A. subst a.
    vm_compute in E. discriminate E.
  - set (q := asked 6 (WaitDemo.h TalkDemo.es6)) in Q. assert (QE : map snd q = map snd (asked 6 (WaitDemo.h TalkDemo.es6))) by reflexivity.
    clearbody q. subst q. rewrite map_app in QE. cbn [map snd] in QE.
    assert (L : last (map snd qs ++ [Wait ks]) (Wait []) = last (map snd (asked 6 (WaitDemo.h TalkDemo.es6))) (Wait [])) by (now rewrite QE).
    rewrite last_last in L. vm_compute in L. discriminate L.
Qed.

Print Assumptions C48_answers_in_step_partial.
Print Assumptions C48_timeout_refuted.
Print Assumptions C48_impatient_refuted.
