(** C06: every message type survives the wire.

    Reading guide.  [MessageModel.msg] lists the thirteen message classes with all
    their attributes.  [plain m] is [m] with every reference an ordinary ActorRef
    (a LocalActorRef becomes an ActorRef with the same address, uid and proxies);
    [sendable m]: every reference and every raw message is there (not None), uids
    are not of type str (ActorRef's constructor has encoded them). *)
From Coq Require Import List Arith Bool ZArith String Lia.
From Verif Require Import MessageModel.
Import ListNotations.
Open Scope list_scope.

Definition plain_ref (r : aref) : aref :=
  {| r_addr := r_addr r; r_uid := r_uid r; r_proxies := r_proxies r; r_local := false |}.
Fixpoint plain (m : msg) : msg :=
  match m with
  | DestroyActor b r f => DestroyActor b (option_map plain_ref r) f
  | HasActor b r => HasActor b (option_map plain_ref r)
  | ActorRef_ b r => ActorRef_ b (option_map plain_ref r)
  | Send b r c => Send b (option_map plain_ref r) c
  | Tell b r c => Tell b (option_map plain_ref r) c
  | Forward b a r => Forward b a (match r with Some raw => Some (plain raw) | None => None end)
  | _ => m
  end.

Definition ref_ok (r : option aref) : Prop :=
  match r with Some r => match r_uid r with VStr _ => False | _ => True end | None => False end.
Fixpoint sendable (m : msg) : Prop :=
  match m with
  | DestroyActor _ r _ | HasActor _ r | ActorRef_ _ r | Send _ r _ | Tell _ r _ => ref_ok r
  | Forward _ _ (Some raw) => sendable raw
  | Forward _ _ None => False
  | _ => True
  end.

(** References made by ActorRef's constructor are fine. *)
Lemma new_ref_ok : forall a u p r, new_ref a u p = Ok r -> ref_ok (Some r).
Proof.
  unfold new_ref. intros a u p r H. destruct (to_str a); simpl in H; [|discriminate].
  destruct (to_list p); simpl in H; [|discriminate]. injection H as <-. simpl. destruct u; exact I.
Qed.

Lemma to_of_bytes : forall x, to_bytes (of_bytes x) = Ok x. Proof. now destruct x. Qed.
Lemma to_of_str : forall x, to_str (of_str x) = Ok x. Proof. now destruct x. Qed.
Lemma to_of_list : forall x, to_list (of_list x) = Ok x. Proof. now destruct x. Qed.
Lemma to_of_tuple : forall x, to_tuple (of_tuple x) = Ok x. Proof. now destruct x. Qed.
Lemma to_of_type : forall x, to_type (of_type x) = Ok x. Proof. now destruct x. Qed.
Lemma to_of_dict : forall x, to_dict (of_dict x) = Ok x. Proof. now destruct x. Qed.

(** All fields are at the place where the code looks for them. *)
Ltac fields :=
  repeat (first [rewrite to_of_bytes | rewrite to_of_str | rewrite to_of_list | rewrite to_of_tuple
                |rewrite to_of_type | rewrite to_of_dict]; simpl); try reflexivity.

Lemma ref_trip : forall r, ref_ok (Some r) ->
  new_ref (of_str (r_addr r)) (r_uid r) (of_list (r_proxies r)) = Ok (plain_ref r).
Proof.
  intros [a u p l] H. unfold new_ref, plain_ref. simpl in *. fields. destruct u; try contradiction; reflexivity.
Qed.

Ltac refcase r b S SM :=
  destruct r as [r|]; [|contradiction]; simpl in S; injection S as <- <-; split; [reflexivity|];
  destruct b; intros fuel _; destruct fuel; simpl;
  unfold base_deserial, ref_at; simpl; fields; unfold ref_at; simpl;
  rewrite (ref_trip _ SM); reflexivity.

Lemma members_trip : forall m, sendable m -> forall t subs, serial_members m = Ok (t, subs) ->
  at_ t 0 = Ok (VInt (type_of m)) /\
  forall fuel, List.length t <= fuel -> deserial_members fuel (VInt (type_of m)) t subs = Ok (plain m).
Proof.
  fix IH 1. intros m SM t subs S. destruct m; simpl in S, SM;
    try (injection S as <- <-; split; [reflexivity|]; destruct b; intros fuel _; destruct fuel; simpl;
         unfold base_deserial; simpl; fields; fail).
  - refcase ref b S SM.
  - refcase ref b S SM.
  - refcase ref b S SM.
  - refcase ref b S SM.
  - refcase ref b S SM.
  - destruct raw as [raw|]; [|contradiction].
    destruct (serial_members raw) as [[t' s']|] eqn:E; simpl in S; [|discriminate].
    injection S as <- <-. destruct (IH raw SM t' s' E) as [A D]. split; [reflexivity|].
    intros fuel L. simpl in L. destruct fuel as [|f]; [lia|]. destruct b; simpl.
    unfold base_deserial; simpl. fields.
    replace (at_ (VInt 12 :: of_bytes b_id :: VInt b_protocol :: of_list b_trace :: b_prof :: of_str address :: t') 6)
      with (at_ t' 0) by reflexivity.
    rewrite A. simpl. rewrite D by lia. reflexivity.
Qed.

Lemma members_ok : forall m, sendable m -> exists t subs, serial_members m = Ok (t, subs).
Proof.
  fix IH 1. intros m SM. destruct m; simpl in *; eauto;
    try (destruct ref as [r|]; [simpl; eauto|contradiction]).
  destruct raw as [raw|]; [|contradiction]. destruct (IH raw SM) as [t [s E]]. rewrite E. simpl. eauto.
Qed.

(** C06.  The protocol of the message handed to serialize is 0, the only one the
    serializer accepts; raw messages of forwards may have any.  The message comes
    back with its class and all attributes. *)
Theorem C06_message_round_trip : forall m, sendable m -> b_protocol (base_of m) = 0%Z ->
  exists header subs, serial m = Ok (header, subs) /\ deserial header subs = Ok (plain m).
Proof.
  intros m SM P. unfold serial. rewrite P. simpl. destruct (members_ok m SM) as [t [s E]].
  exists t, s. split; [exact E|]. destruct (members_trip m SM t s E) as [A D].
  unfold deserial. rewrite A. simpl. apply D. lia.
Qed.

(** Hence two messages that look the same on the wire are the same. *)
Theorem C06_wire_form_is_unambiguous : forall m1 m2 w,
  sendable m1 -> sendable m2 -> serial m1 = Ok w -> serial m2 = Ok w -> plain m1 = plain m2.
Proof.
  intros m1 m2 [t s] S1 S2 E1 E2. unfold serial in *.
  destruct (b_protocol (base_of m1) =? 0)%Z; [|discriminate].
  destruct (b_protocol (base_of m2) =? 0)%Z; [|discriminate].
  destruct (members_trip m1 S1 t s E1) as [A1 D1]. destruct (members_trip m2 S2 t s E2) as [A2 D2].
  rewrite A1 in A2. injection A2 as Q. specialize (D1 _ (Nat.le_refl _)). specialize (D2 _ (Nat.le_refl _)).
  rewrite Q in D1. rewrite D1 in D2. now injection D2.
Qed.

(** What cannot be serialized is refused, never sent as something else. *)
Theorem C06_unsendable_is_refused : forall m,
  match serial m with
  | Ok (header, subs) => b_protocol (base_of m) = 0%Z /\ (sendable m -> deserial header subs = Ok (plain m))
  | Fail e => e = AssertionError /\ b_protocol (base_of m) <> 0%Z \/ e = AttributeError /\ ~ sendable m
  end.
Proof.
  intros m. unfold serial. destruct (b_protocol (base_of m) =? 0)%Z eqn:P.
  - apply Z.eqb_eq in P. destruct (serial_members m) as [[t s]|e] eqn:E.
    + split; auto. intros SM. destruct (C06_message_round_trip m SM P) as [t2 [s2 [E2 D]]].
      unfold serial in E2. rewrite P in E2. simpl in E2. congruence.
    + right. split.
      * revert e E. clear P. revert m. fix IH 1. intros m e E.
        destruct m; simpl in E; try discriminate;
          try (destruct ref; simpl in E; congruence).
        destruct raw as [raw|]; [|congruence]. destruct (serial_members raw) as [x|e'] eqn:F; simpl in E; [discriminate|].
        injection E as <-. eapply IH; eauto.
      * intros SM. destruct (members_ok m SM) as [t [s E2]]. congruence.
  - left. split; auto. now apply Z.eqb_neq.
Qed.

(** If a sub-component cannot be deserialized, the error names the id of the
    message that was received (for a forward: of the forward). *)
Theorem C06_failure_names_the_message : forall m header subs, serial m = Ok (header, subs) ->
  failed_id header = Ok (of_bytes (b_id (base_of m))).
Proof.
  intros m h s E. unfold serial in E. destruct (b_protocol (base_of m) =? 0)%Z; [|discriminate].
  destruct m; simpl in E; try (injection E as <- <-; reflexivity);
    try (destruct ref; simpl in E; [|discriminate]; injection E as <- <-; reflexivity).
  destruct raw as [raw|]; [|discriminate]. destruct (serial_members raw) as [[t' s']|]; simpl in E; [|discriminate].
  injection E as <- <-. reflexivity.
Qed.

(** ** A message that meets the hypotheses: a call forwarded twice *)
Module Demo.
  Definition id (n : nat) : base := {| b_id := Some [n]; b_protocol := 0; b_trace := Some [VObj 1]; b_prof := VObj 2 |}.
  Definition ref := {| r_addr := Some "a:1"%string; r_uid := VBytes [7]; r_proxies := Some [VStr "p:1"]; r_local := true |}.
  Definition m := Forward (id 1) (Some "p:1"%string) (Some (Forward (id 2) (Some "p:2"%string)
    (Some (Send {| b_id := Some [3]; b_protocol := 5; b_trace := None; b_prof := VNone |} (Some ref) (VObj 9))))).
  Example hypotheses_met : sendable m /\ b_protocol (base_of m) = 0%Z.
  Proof. split; exact I || reflexivity. Qed.
  Example wire : exists h s, serial m = Ok (h, s) /\ List.length h = 20 /\ s = [VObj 9] /\
    deserial h s = Ok (plain m) /\ plain m <> m.
  Proof. eexists; eexists. repeat split; try reflexivity. discriminate. Qed.
End Demo.

Print Assumptions C06_message_round_trip.
Print Assumptions C06_wire_form_is_unambiguous.
Print Assumptions C06_unsendable_is_refused.
Print Assumptions C06_failure_names_the_message.
