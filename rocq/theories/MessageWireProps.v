(** C06, over a connection: what the receiver gets is the message that was sent, with equal contents.

    Reading guide.  ChannelModel (C61): tasks call [send] on one channel; [reach], [calls], [order], [wire], [recv_all] and [decodes] as
    in ChannelProps.  The argument of a call may be a message: [is_message h v m].  [received h2 v2] is what
    MessageSerializer makes of what arrived.  [alike h v h2 v2]: two values of messages, one in the objects of the sender,
    one in those of the receiver, are equal as data; [same_message]: same class, same fields, contents alike. *)
From Coq Require Import String.
From Coq Require Import List NArith Arith Bool ZArith Lia.
From Verif Require Import Base FramingModel FramingProofs FramingProps SerModel SerSpec SerMachine SerProofs SerEnd SerProps ChannelModel ChannelProps.
From Verif Require Import MessageModel MessageProps MessageWireModel.
Import ListNotations.
Open Scope list_scope.

Section S.
  Variables P C : Type.
  Variable payload_of : P -> payload.
  Notation heap := (heap P C).
  Notation sval := (SerModel.val P).
  Notation mval := MessageModel.val.

  (** ** Specification *)
  Definition equal_objects (h : heap) (a : nat) (h2 : heap) (b : nat) : Prop :=
    exists x, denotes P C h (VR a) x /\ denotes P C h2 (VR b) x.

  Inductive alike (h h2 : heap) : mval -> mval -> Prop :=
  | alike_primitive v : primitive v = true -> alike h h2 v v
  | alike_object a b : equal_objects h a h2 b -> alike h h2 (VObj a) (VObj b)
  | alike_dict a b : equal_objects h a h2 b -> alike h h2 (VDict a) (VDict b)
  | alike_tuple l l' : Forall2 (alike h h2) l l' -> alike h h2 (VTuple l) (VTuple l').

  Definition alike_opt {A} (f : A -> mval) (h h2 : heap) (x y : option A) : Prop :=
    match x, y with Some x, Some y => alike h h2 (f x) (f y) | None, None => True | _, _ => False end.

  Fixpoint same_message (h h2 : heap) (m m2 : msg) : Prop :=
    match m, m2 with
    | Control b a t c, Control b' a' t' c' => b = b' /\ a = a' /\ t = t' /\ alike h h2 c c'
    | Result b r, Result b' r' => b = b' /\ alike h h2 r r'
    | Error b a p t e tb, Error b' a' p' t' e' tb' =>
        b = b' /\ a = a' /\ p = p' /\ t = t' /\ alike h h2 e e' /\ alike h h2 tb tb'
    | CreateActor b c i args kw s f, CreateActor b' c' i' args' kw' s' f' =>
        b = b' /\ c = c' /\ i = i' /\ s = s' /\ f = f' /\
        alike_opt VTuple h h2 args args' /\ alike_opt VDict h h2 kw kw'
    | DestroyActor b r f, DestroyActor b' r' f' => b = b' /\ r = r' /\ f = f'
    | HasActor b r, HasActor b' r' => b = b' /\ r = r'
    | ActorRef_ b r, ActorRef_ b' r' => b = b' /\ r = r'
    | Send b r c, Send b' r' c' => b = b' /\ r = r' /\ alike h h2 c c'
    | Tell b r c, Tell b' r' c' => b = b' /\ r = r' /\ alike h h2 c c'
    | Cancel b a i, Cancel b' a' i' => b = b' /\ a = a' /\ i = i'
    | CopyToBuffers b c, CopyToBuffers b' c' => b = b' /\ alike h h2 c c'
    | CopyToFileObjects b c, CopyToFileObjects b' c' => b = b' /\ alike h h2 c c'
    | Forward b a r, Forward b' a' r' => b = b' /\ a = a' /\
        match r, r' with Some m, Some m2 => same_message h h2 m m2 | None, None => True | _, _ => False end
    | _, _ => False
    end.

  (** ** Proofs *)

  (** The message code treats objects alike. *)
  Section Param.
    Variables h h2 : heap.
    Notation alk := (alike h h2).
    Lemma at_alike : forall l l' i v, Forall2 alk l l' -> at_ l i = Ok v -> exists v', at_ l' i = Ok v' /\ alk v v'.
    Proof.
      unfold at_. intros l l' i v F. revert i. induction F as [|x y l l' A F IH]; intros [|i] E; cbn in *; try discriminate.
      - injection E as <-. eauto.
      - apply IH. exact E.
    Qed.
    Lemma to_type_alike : forall v v' t, alk v v' -> to_type v = Ok t -> to_type v' = Ok t.
    Proof. intros v v' t A E. inversion A; subst; auto; discriminate. Qed.
    Lemma to_tuple_alike : forall v v' t, alk v v' -> to_tuple v = Ok t -> exists t', to_tuple v' = Ok t' /\ alike_opt VTuple h h2 t t'.
    Proof.
      intros v v' t A E. inversion A; subst; cbn in E; try discriminate.
      - destruct v'; cbn in *; try discriminate. injection E as <-. exists None. split; auto. exact I.
      - injection E as <-. exists (Some l'). split; auto.
    Qed.
    Lemma to_dict_alike : forall v v' t, alk v v' -> to_dict v = Ok t -> exists t', to_dict v' = Ok t' /\ alike_opt VDict h h2 t t'.
    Proof.
      intros v v' t A E. inversion A; subst; cbn in E; try discriminate.
      - destruct v'; cbn in *; try discriminate. injection E as <-. exists None. split; auto. exact I.
      - injection E as <-. exists (Some b). split; auto.
    Qed.

    Lemma bind_ok : forall A B (r : res A) (f : A -> res B) b, bind r f = Ok b -> exists a, r = Ok a /\ f a = Ok b.
    Proof. intros A B [a|e] f b E; cbn in E; [eauto|discriminate]. Qed.

    Ltac steps := repeat match goal with
      | E : bind _ _ = Ok _ |- _ => apply bind_ok in E; let a := fresh "a" in let F := fresh "F" in destruct E as (a & F & E)
      end.
    Ltac subs_ := repeat match goal with
      | F : Forall2 _ ?l ?l', A : at_ ?l ?i = Ok ?v |- _ =>
          let v' := fresh "v" in let B := fresh "B" in let K := fresh "K" in
          destruct (at_alike _ _ _ _ F A) as (v' & B & K); clear A; rewrite B; cbn [bind]
      | T : to_type ?v = Ok _, K : alike _ _ ?v _ |- _ => rewrite (to_type_alike _ _ _ K T); clear T; cbn [bind]
      | T : to_tuple ?v = Ok _, K : alike _ _ ?v _ |- _ =>
          let t := fresh "t" in let B := fresh "B" in let K2 := fresh "K" in
          destruct (to_tuple_alike _ _ _ K T) as (t & B & K2); clear T; rewrite B; cbn [bind]
      | T : to_dict ?v = Ok _, K : alike _ _ ?v _ |- _ =>
          let t := fresh "t" in let B := fresh "B" in let K2 := fresh "K" in
          destruct (to_dict_alike _ _ _ K T) as (t & B & K2); clear T; rewrite B; cbn [bind]
      end.
    Ltac hdr := repeat match goal with F : ?x = Ok _ |- context [bind ?x _] => rewrite F; cbn [bind] end.

    Lemma known_types : forall f tp t subs m, deserial_members f tp t subs = Ok m ->
      exists k, k < 13 /\ tp = VInt (Z.of_nat k).
    Proof.
      intros f tp t subs m E. destruct tp as [|z| | | | | | |]; try (destruct f; discriminate).
      destruct z as [|p|p]; try (destruct f; discriminate); [exists 0; split; [lia|reflexivity]|].
      do 4 (try (destruct p as [p|p|]));
        try (destruct f; discriminate E);
        first [exists 1; split; [lia|reflexivity] | exists 2; split; [lia|reflexivity] | exists 3; split; [lia|reflexivity]
              |exists 4; split; [lia|reflexivity] | exists 5; split; [lia|reflexivity] | exists 6; split; [lia|reflexivity]
              |exists 7; split; [lia|reflexivity] | exists 8; split; [lia|reflexivity] | exists 9; split; [lia|reflexivity]
              |exists 10; split; [lia|reflexivity] | exists 11; split; [lia|reflexivity] | exists 12; split; [lia|reflexivity]].
    Qed.

    Lemma members_alike : forall fuel tp t subs subs' m, Forall2 alk subs subs' ->
      deserial_members fuel tp t subs = Ok m ->
      exists m', deserial_members fuel tp t subs' = Ok m' /\ same_message h h2 m m'.
    Proof.
      induction fuel as [|f IH]; intros tp t subs subs' m F E.
      - destruct (known_types _ _ _ _ _ E) as (k & L & ->).
        do 12 (destruct k as [|k]; [cbn [deserial_members Z.of_nat Pos.of_succ_nat Pos.succ] in *; steps;
          try discriminate; injection E as <-; hdr; subs_; eexists; split; [reflexivity|]; cbn; repeat split; auto; fail|]).
        destruct k as [|k]; [discriminate E|lia].
      - destruct (known_types _ _ _ _ _ E) as (k & L & ->).
        do 12 (destruct k as [|k]; [cbn [deserial_members Z.of_nat Pos.of_succ_nat Pos.succ] in *; steps;
          try discriminate; injection E as <-; hdr; subs_; eexists; split; [reflexivity|]; cbn; repeat split; auto; fail|]).
        destruct k as [|k]; [|lia]. cbn [deserial_members Z.of_nat Pos.of_succ_nat Pos.succ] in *. steps.
        injection E as <-. hdr.
        match goal with R : deserial_members f _ _ subs = Ok _ |- _ => destruct (IH _ _ _ _ _ F R) as (m' & R' & SM) end.
        rewrite R'. cbn [bind]. eexists. split; [reflexivity|]. cbn. auto.
    Qed.
  End Param.

  Lemma view_alike : forall h h2 v w x y, denotes P C h v x -> denotes P C h2 w x ->
    view P C payload_of h v = Some y -> exists z, view P C payload_of h2 w = Some z /\ alike h h2 y z.
  Proof.
    intros h h2 v w x y D1 D2 E.
    assert (IP : forall p y, item P payload_of (VP p) = Some y -> alike h h2 y y).
    { clear. intros p y E. cbn in E. destruct (payload_of p); [discriminate|].
      destruct (primitive v) eqn:Q; [|discriminate]. injection E as <-. now apply alike_primitive. }
    destruct x as [p|c|k xs].
    - cbn in D1, D2. subst v w. exists y. split; [exact E|]. eapply IP. exact E.
    - pose proof D1 as D1'. pose proof D2 as D2'. destruct D1 as (a & -> & A). destruct D2 as (b & -> & B). cbn in E |- *. rewrite A in E. rewrite B.
      injection E as <-. eexists. split; [reflexivity|]. apply alike_object. exists (Leaf c). auto.
    - pose proof D1 as D1'. pose proof D2 as D2'. apply denotes_node in D1. apply denotes_node in D2.
      destruct D1 as (a & vs & -> & A & F1). destruct D2 as (b & ws & -> & B & F2).
      assert (EO : equal_objects h a h2 b) by (exists (Node k xs); auto).
      cbn in E |- *. rewrite A in E. rewrite B. destruct k as [[|]|[|ty]|[|]];
        try (injection E as <-; eexists; split; [reflexivity|]; constructor; exact EO).
      destruct (items P payload_of vs) as [l|] eqn:I; [|discriminate]. injection E as <-.
      assert (X : exists l', items P payload_of ws = Some l' /\ Forall2 (alike h h2) l l').
      { clear - F1 F2 I IP. revert ws l F2 I. induction F1 as [|v x vs xs D1 F1 IH]; intros ws l F2 I.
        - inversion F2; subst. cbn in *. injection I as <-. eauto.
        - inversion F2 as [|w ? ws' ? D2 F2']; subst. cbn [items] in *.
          destruct (item P payload_of v) as [y|] eqn:IV; [|discriminate].
          destruct (items P payload_of vs) as [ys|]; [|discriminate]. injection I as <-.
          destruct (IH _ _ F2' eq_refl) as (l' & -> & F3).
          assert (Y : exists z, item P payload_of w = Some z /\ alike h h2 y z).
          { destruct v as [p|a].
            - assert (w = VP p).
              { destruct x as [q|c|k zs]; [cbn in D1, D2; congruence| |].
                - destruct D1 as (? & Q & _). discriminate.
                - apply denotes_node in D1. destruct D1 as (? & ? & Q & _). discriminate. }
              subst w. exists y. split; [exact IV|]. eapply IP. exact IV.
            - cbn in IV. injection IV as <-.
              assert (Z : exists b, w = VR b).
              { destruct x as [q|c|k zs]; [discriminate D1| |].
                - destruct D2 as (b & -> & _). eauto.
                - apply denotes_node in D2. destruct D2 as (b & ? & -> & _). eauto. }
              destruct Z as [b ->]. exists (VObj b). split; [reflexivity|]. apply alike_object. exists x. auto. }
          destruct Y as (z & -> & AZ). eexists. split; [reflexivity|]. constructor; auto. }
      destruct X as (l' & -> & F). cbn. eexists. split; [reflexivity|]. now apply alike_tuple.
  Qed.

  Lemma parts_alike : forall h h2 v w x t subs, denotes P C h v x -> denotes P C h2 w x ->
    parts P C payload_of h v = Some (t, subs) ->
    exists subs', parts P C payload_of h2 w = Some (t, subs') /\ Forall2 (alike h h2) subs subs'.
  Proof.
    intros h h2 v w x t subs D1 D2 E. destruct v as [p|a]; [discriminate|]. cbn in E.
    destruct (nth_error h a) as [[c|k vs]|] eqn:A; try discriminate.
    destruct x as [q|c|k' xs]; [discriminate D1|destruct D1 as (a' & Q & A'); injection Q as <-; congruence|].
    apply denotes_node in D1. apply denotes_node in D2.
    destruct D1 as (a' & vs' & Q & A' & F1). injection Q as <-. rewrite A in A'. injection A' as <- <-.
    destruct D2 as (b & ws & -> & B & F2). cbn. rewrite B.
    destruct k as [?|[|[|?]]|?]; try discriminate.
    destruct vs as [|[p|?] vs]; try discriminate.
    inversion F1 as [|? x0 ? xs' D0 F1']; subst. inversion F2 as [|w0 ? ws' ? D0' F2']; subst.
    assert (x0 = Prim p).
    { destruct x0 as [q|c|k zs]; [cbn in D0; congruence|destruct D0 as (? & Q & _); discriminate|].
      apply denotes_node in D0. destruct D0 as (? & ? & Q & _). discriminate. }
    subst x0. cbn in D0'. subst w0. destruct (payload_of p) as [t'|]; [|discriminate].
    destruct (views P C payload_of h vs) as [l|] eqn:V; [|discriminate]. injection E as -> ->.
    assert (X : exists l', views P C payload_of h2 ws' = Some l' /\ Forall2 (alike h h2) subs l').
    { clear - F1' F2' V. revert ws' subs F2' V. induction F1' as [|v x vs xs D1 F1 IH]; intros ws l F2 V.
      - inversion F2; subst. cbn in *. injection V as <-. eauto.
      - inversion F2 as [|w ? ws2 ? D2 F2']; subst. cbn [views] in *.
        destruct (view P C payload_of h v) as [y|] eqn:VV; [|discriminate].
        destruct (views P C payload_of h vs) as [ys|]; [|discriminate]. injection V as <-.
        destruct (IH _ _ F2' eq_refl) as (l' & -> & F3).
        destruct (view_alike _ _ _ _ _ _ D1 D2 VV) as (z & -> & AZ). eexists. split; [reflexivity|]. constructor; auto. }
    destruct X as (l' & -> & F). eauto.
  Qed.

  Lemma message_alike : forall h h2 v w x m, denotes P C h v x -> denotes P C h2 w x ->
    is_message P C payload_of h v m -> sendable m ->
    exists m2, received P C payload_of h2 w = Some (Ok m2) /\ same_message h h2 (plain m) m2.
  Proof.
    intros h h2 v w x m D1 D2 ((t & subs) & Pa & S) SM.
    destruct (parts_alike _ _ _ _ _ _ _ D1 D2 Pa) as (subs' & Pb & F).
    pose proof (C06_unsendable_is_refused m) as U. rewrite S in U. destruct U as [_ U]. specialize (U SM).
    unfold deserial in U. apply bind_ok in U. destruct U as (tp & T0 & U).
    destruct (members_alike h h2 _ _ _ _ _ _ F U) as (m2 & U2 & SAME).
    exists m2. split; auto. unfold received. rewrite Pb. unfold deserial. rewrite T0. cbn [bind]. now rewrite U2.
  Qed.

  (** ** Theorem *)
  Section Theorem_.
    Variable H : Type.
    Variable leaf_head : C -> H.
    Variable leaf_bufs : C -> list buffer.
    Variable leaf_load : H -> list buffer -> option C.
    Variable pickle : wire_header (header P H) -> bytes.
    Variable unpickle : bytes -> option (wire_header (header P H)).
    Variable cuda_chunk : nat.
    Variable compress : N.
    Variable threshold : Z.

    (** Whatever tasks send on a channel and in whatever pieces the bytes arrive: for each call of [send] that has
        written, in this order, something arrives, and if the call's argument was a message (whose contents have no
        cycles, and did not change while a thread serialized them) this is the message. *)
    Theorem C06_over_a_channel :
      codecs P C H leaf_head leaf_bufs leaf_load pickle unpickle cuda_chunk ->
      forall h s, reach P C H leaf_head leaf_bufs pickle cuda_chunk compress threshold h s ->
      forall chunks extra, concat chunks = wire P C H s ->
      exists arrived, recv_all unpickle cuda_chunk (List.length (order P C H s) + S extra) (Reader [] chunks) = (arrived, Some EEof) /\
        Forall2 (fun k got => exists c, nth_error (calls P C H s) k = Some c /\
          (after P C H c = before P C H c -> forall m x,
            is_message P C payload_of (before P C H c) (arg P C H c) m -> sendable m ->
            denotes P C (before P C H c) (arg P C H c) x ->
            exists h2 v2 m2, decodes P C H leaf_load got h2 v2 /\ received P C payload_of h2 v2 = Some (Ok m2) /\
              same_message (before P C H c) h2 (plain m) m2)) (order P C H s) arrived.
    Proof.
      intros CO h s R chunks extra E.
      destruct (C61_delivered P C H leaf_head leaf_bufs leaf_load pickle unpickle cuda_chunk compress threshold CO h s R chunks extra E) as (ms & RV & F).
      exists ms. split; [exact RV|]. clear - F. induction F as [|k m l ms (c & N & Q) F IH]; constructor; auto.
      exists c. split; auto. intros AB mm x IM SM D. destruct (Q AB x D) as (h2 & v2 & DE & D2).
      destruct (message_alike _ _ _ _ _ _ D D2 IM SM) as (m2 & RM & SAME). eauto 8.
    Qed.
  End Theorem_.
End S.

(** ** A message that meets the hypotheses: a call with two arguments, one of them a list *)
Module Demo.
  Import ChannelProps.Demo.
  Definition b0 : base := {| b_id := Some [7]; b_protocol := 0; b_trace := None; b_prof := VNone |}.
  Definition ref : aref := {| r_addr := Some "a:1"%string; r_uid := VBytes [9]; r_proxies := Some []; r_local := true |}.
  Definition the_header : list MessageModel.val :=
    match serial (Send b0 (Some ref) VNone) with Ok (t, _) => t | Fail _ => [] end.
  Definition payload_of (p : nat) : payload := match p with 0 => Header the_header | S n => Plain (VInt (Z.of_nat n)) end.
  (** 0: the message, 1: its content (1, x) where 2: x is a list of two bytes objects *)
  Definition objects : heap nat nat :=
    [ONode message_class [VP 0; VR 1]; ONode (KTuple 0) [VP 2; VR 2]; ONode (KList 0) [VR 3; VR 3]; OLeaf 5].
  Definition m : msg := Send b0 (Some ref) (VTuple [VInt 1; VObj 2]).
  Example a_message : is_message nat nat payload_of objects (VR 0) m /\ sendable m.
  Proof. split; [|exact I]. eexists. split; reflexivity. Qed.
  Definition x : data nat nat := Node message_class [Prim 0; Node (KTuple 0) [Prim 2; Node (KList 0) [Leaf 5; Leaf 5]]].
  Example its_data : denotes nat nat objects (VR 0) x.
  Proof.
    cbn. exists 0, [VP 0; VR 1]. repeat split. exists 1, [VP 2; VR 2]. repeat split. exists 2, [VR 3; VR 3].
    repeat split; exists 3; auto.
  Qed.
  Definition o : output nat unit buffer :=
    match serialize nat nat unit buffer lh lb 1000 objects (VR 0) with Some o => o | None => (None, T (HEmpty 0) [], []) end.
  Definition mm : mach := match start nat nat unit buffer lh lb objects (VR 0) with Some (inr m) => m | _ => m0 end.
  Definition mf : mach := match mloop nat nat unit buffer lh lb 1000 objects 100 mm with Some (Finished m) => m | _ => m0 end.
  Lemma is_quick : quick nat nat unit lh lb 100 objects (VR 0) o.
  Proof. apply (quick_loop _ _ _ _ _ _ _ _ _ mm 1000 mf); vm_compute; reflexivity. Qed.
  Lemma fr_o : bytes_of nat unit pickle 4 0 o = Some (fr o).
  Proof. vm_compute. reflexivity. Qed.
  Definition sent : conn nat nat unit := mkConn objects [objects] true [mkCall 0 (VR 0) objects objects Draining] ([] ++ fr o) [0].
  Lemma reach_sent : reach objects sent.
  Proof.
    eapply reach_step; [apply reach_start|].
    refine (send_quick nat nat unit lh lb pickle 4 0 100 (initial nat nat unit objects) 0 (VR 0) o _ _ is_quick fr_o eq_refl). intros c [].
  Qed.
  Example arrives : exists got h2 v2 c2 l2, recv_all unpickle 4 2 (Reader [] [fr o]) = ([got], Some EEof) /\
    decodes nat nat unit ll got h2 v2 /\
    received nat nat payload_of h2 v2 = Some (Ok (Send b0 (Some (plain_ref ref)) c2)) /\ c2 = VTuple [VInt 1; VObj l2] /\
    denotes nat nat h2 (VR l2) (Node (KList 0) [Leaf 5; Leaf 5]).
  Proof.
    destruct (C06_over_a_channel nat nat payload_of unit lh lb ll pickle unpickle 4 0 100 codecs_ok objects sent reach_sent [fr o] 0)
      as (ms & R & F). { cbn [concat]. now rewrite app_nil_r. }
    inversion F as [|? got ? ? (c & N & Q) F1]; subst. inversion F1; subst. injection N as <-.
    destruct a_message as [IM SM].
    destruct (Q eq_refl m x IM SM its_data) as (h2 & v2 & m2 & D & RM & SAME). cbn in SAME.
    destruct m2; try tauto. destruct SAME as (<- & <- & A).
    inversion A as [? Pr| | |l l' FA]; subst; [discriminate|].
    inversion FA as [|? y1 ? l1 A1 FA1]; subst. inversion FA1 as [|? y2 ? l2' A2 FA2]; subst. inversion FA2; subst.
    inversion A1; subst. inversion A2 as [? Pr|? b (xx & X1 & X2)| |]; subst; [discriminate|].
    exists got, h2, v2, (VTuple [VInt 1; VObj b]), b. repeat split; auto.
    assert (XX : xx = Node (KList 0) [Leaf 5; Leaf 5]); [|now subst].
    assert (LL : forall y, denotes nat nat objects (VR 3) y -> y = Leaf 5).
    { intros [q|q|k ys] Y; [discriminate Y|destruct Y as (a & Ya & Yb); injection Ya as <-; cbn in Yb; congruence|].
      apply denotes_node in Y. destruct Y as (a & vs & Ya & Yb & _). injection Ya as <-. discriminate. }
    destruct xx as [q|q|k ys]; [discriminate X1|destruct X1 as (a & Ya & Yb); injection Ya as <-; discriminate|].
    apply denotes_node in X1. destruct X1 as (a & vs & Ya & Yb & Yc). injection Ya as <-. cbn in Yb. injection Yb as <- <-.
    inversion Yc as [|? y3 ? ? E3 Yd]; subst. inversion Yd as [|? y4 ? ? E4 Ye]; subst. inversion Ye; subst.
    apply LL in E3, E4. now subst.
  Qed.
  (** A message that creates an actor: class, positional arguments (a tuple) and keyword arguments (a dict) *)
  Definition create_header : list MessageModel.val :=
    match serial (CreateActor b0 (Some 3) (Some [1]) None None VNone VNone) with Ok (t, _) => t | Fail _ => [] end.
  Definition payload_of2 (p : nat) : payload :=
    match p with 0 => Header create_header | 1 => Plain (VType 3) | S n => Plain (VInt (Z.of_nat n)) end.
  Definition objects2 : heap nat nat :=
    [ONode message_class [VP 0; VP 1; VR 1; VR 2]; ONode (KTuple 0) [VR 3]; ONode (KDict 0) [VP 4; VR 3]; OLeaf 5].
  Example a_creation :
    is_message nat nat payload_of2 objects2 (VR 0) (CreateActor b0 (Some 3) (Some [1]) (Some [VObj 3]) (Some 2) VNone VNone) /\
    received nat nat payload_of2 objects2 (VR 0) = Some (Ok (CreateActor b0 (Some 3) (Some [1]) (Some [VObj 3]) (Some 2) VNone VNone)).
  Proof. split; [eexists; split; reflexivity|reflexivity]. Qed.
End Demo.

Print Assumptions C06_over_a_channel.
