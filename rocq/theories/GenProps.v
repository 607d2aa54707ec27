(** C28: remote generators.

    Reading guide.  The specification speaks about the history (newest first) of
    operations on wrappers with their results. *)
From Coq Require Import List Arith Bool String Lia.
From Verif Require Import Base Dict GenModel.
Import ListNotations.
Open Scope list_scope.
Notation length := List.length.

Definition history := list (ev * out).
(** Which generator a wrapper stands for. *)
Fixpoint uid_of (h : history) (w : nat) : option nat :=
  match h with
  | [] => None
  | (_, RWrapper w' u) :: h' => if w' =? w then Some u else uid_of h' w
  | _ :: h' => uid_of h' w
  end.
(** What generator that is. *)
Fixpoint gen_of (h : history) (u : nat) : option gen :=
  match h with
  | [] => None
  | (ECreate g, RWrapper _ u') :: h' => if u' =? u then Some g else gen_of h' u
  | _ :: h' => gen_of h' u
  end.
Definition is_uid (h : history) (w u : nat) : bool :=
  match uid_of h w with Some u' => u' =? u | None => false end.
(** A wrapper that can be used: it was handed out and not dropped. *)
Fixpoint usable (h : history) (w : nat) : bool :=
  match h with
  | [] => false
  | (EDrop w', _) :: h' => if w' =? w then false else usable h' w
  | (_, RWrapper w' _) :: h' => if w' =? w then true else usable h' w
  | _ :: h' => usable h' w
  end.
(** The wrapper that releases the generator when it is dropped: the one created or
    received last, until it is sent on. *)
Fixpoint owner (h : history) (w : nat) : bool :=
  match h with
  | [] => false
  | (ETransfer w', RWrapper w2 _) :: h' => if w2 =? w then true else if w' =? w then false else owner h' w
  | (_, RWrapper w' _) :: h' => if w' =? w then true else owner h' w
  | (ETransferLost w', _) :: h' => if w' =? w then false else owner h' w
  | _ :: h' => owner h' w
  end.
(** Number of next calls made for a generator. *)
Fixpoint asked (h : history) (u : nat) : nat :=
  match h with
  | [] => 0
  | (ENext w, _) :: h' => if usable h' w && is_uid h' w u then S (asked h' u) else asked h' u
  | _ :: h' => asked h' u
  end.
(** The consumer gave it up: destroy(), or the owner was dropped. *)
Fixpoint given_up (h : history) (u : nat) : bool :=
  match h with
  | [] => false
  | (EDestroy w, _) :: h' => usable h' w && is_uid h' w u || given_up h' u
  | (EDrop w, _) :: h' => usable h' w && owner h' w && is_uid h' w u || given_up h' u
  | _ :: h' => given_up h' u
  end.

(** What iteration over the generator itself would give for its [n]-th next. *)
Definition wanted (g : gen) (n : nat) : out :=
  match nth_error (fst g) n with
  | Some v => RItem v
  | None => if n =? length (fst g) then match snd g with Return => RStop | Raises m => RError m end
            else RStop
  end.

(** C28, items and end, in full. *)
Definition C28_claim : Prop := forall s h w u g, reach s h ->
  usable h w = true -> uid_of h w = Some u -> gen_of h u = Some g -> given_up h u = false ->
  snd (step s (ENext w)) = wanted g (asked h u).

(** ** Proofs *)
Definition left (g : gen) (n : nat) : option gen :=
  if n <=? length (fst g) then Some (skipn n (fst g), snd g) else None.

Record inv (s : st) (h : history) : Prop := {
  i_new_u : forall u, next_uid s <= u -> gget Nat.eqb (gens s) u = None /\ gen_of h u = None /\ asked h u = 0 /\ given_up h u = false;
  i_new_w : forall w, next_w s <= w -> gget Nat.eqb (wraps s) w = None /\ uid_of h w = None /\ usable h w = false;
  i_w : forall w u gc, gget Nat.eqb (wraps s) w = Some (u, gc) ->
     usable h w = true /\ uid_of h w = Some u /\ owner h w = gc /\ u < next_uid s;
  i_use : forall w, usable h w = true -> exists u gc, gget Nat.eqb (wraps s) w = Some (u, gc);
  i_uid : forall w u, uid_of h w = Some u -> u < next_uid s;
  i_gen : forall u, u < next_uid s -> exists g, gen_of h u = Some g /\
     gget Nat.eqb (gens s) u = if given_up h u then None else left g (asked h u)
}.

Lemma inv_init : inv init [].
Proof.
  constructor; simpl; auto; try discriminate; try tauto. intros u H. lia.
Qed.

Lemma skipn_cons_nth : forall A (l : list A) n x r, skipn n l = x :: r -> nth_error l n = Some x /\ skipn (S n) l = r /\ n < length l.
Proof.
  induction l as [|y l IH]; intros [|n] x r H; simpl in *; try discriminate.
  - injection H as <- <-. repeat split; auto. lia.
  - destruct (IH _ _ _ H) as [A1 [A2 A3]]. repeat split; auto. lia.
Qed.
Lemma skipn_nil_len : forall A (l : list A) n, skipn n l = [] -> length l <= n.
Proof. induction l as [|y l IH]; intros [|n] H; simpl in *; try discriminate; try lia. apply IH in H. lia. Qed.

Lemma left_step : forall g n, n <= length (fst g) ->
  match skipn n (fst g) with
  | v :: r => left g (S n) = Some (r, snd g) /\ nth_error (fst g) n = Some v
  | [] => left g (S n) = None /\ n = length (fst g)
  end.
Proof.
  intros [vs e] n L. simpl in *. unfold left. simpl fst. simpl snd. destruct (skipn n vs) as [|v r] eqn:E.
  - apply skipn_nil_len in E. split; [|lia].
    destruct (Nat.leb_spec (S n) (length vs)); auto. lia.
  - destruct (skipn_cons_nth _ _ _ _ _ E) as [A [B C]].
    destruct (Nat.leb_spec (S n) (length vs)); [|lia]. rewrite B. auto.
Qed.

(** The next call on a usable wrapper (internal form, see [seen] below). *)
Definition seen_b (g : gen) (n : nat) : out :=
  match nth_error (fst g) n with
  | Some v => RItem v
  | None => if n =? length (fst g) then
              match snd g with
              | Return => RStop
              | Raises m => if contains "StopIteration" (shown m) then RStop else RError m
              end
            else RNoIterator
  end.

Lemma server_next_ok : forall s h u g, inv s h -> u < next_uid s -> gen_of h u = Some g -> given_up h u = false ->
  snd (anext s u) = seen_b g (asked h u) /\
  (forall u', gget Nat.eqb (gens (fst (anext s u))) u' =
     if u' =? u then left g (S (asked h u)) else gget Nat.eqb (gens s) u') /\
  wraps (fst (anext s u)) = wraps s /\ next_uid (fst (anext s u)) = next_uid s /\ next_w (fst (anext s u)) = next_w s.
Proof.
  intros s h u g I L G N. destruct (i_gen _ _ I u L) as [g' [G' E]]. rewrite G in G'. injection G' as <-.
  rewrite N in E. set (n := asked h u) in *. unfold anext, server_next, seen_b. rewrite E. unfold left in E |- *.
  destruct (n <=? length (fst g)) eqn:LE.
  - apply Nat.leb_le in LE. pose proof (left_step g n LE) as LS. unfold left in LS.
    destruct (skipn n (fst g)) as [|v r] eqn:SK.
    + destruct LS as [LS1 LS2]. rewrite LS1.
      assert (NN : nth_error (fst g) n = None) by (apply nth_error_None; lia). rewrite NN.
      replace (n =? length (fst g)) with true by (symmetry; now apply Nat.eqb_eq).
      destruct (snd g) as [|m]; simpl; (split; [reflexivity|]; split; [|auto]);
        intros u'; rewrite (gget_gdel _ Nat.eqb_spec), (Nat.eqb_sym u' u); reflexivity.
    + destruct LS as [LS1 LS2]. rewrite LS1, LS2. simpl. split; auto. split; auto.
      intros u'. rewrite (gget_gset _ Nat.eqb_spec), (Nat.eqb_sym u' u). reflexivity.
  - apply Nat.leb_gt in LE. assert (NN : nth_error (fst g) n = None) by (apply nth_error_None; lia). rewrite NN.
    destruct (Nat.eqb_spec n (length (fst g))); [lia|]. simpl. split; auto. split; auto.
    intros u'. destruct (Nat.eqb_spec u' u) as [->|]; auto. rewrite E.
    replace (S n <=? length (fst g)) with false by (symmetry; apply Nat.leb_gt; lia).
    change (match length (fst g) with 0 => false | S m' => n <=? m' end) with (S n <=? length (fst g)).
    replace (S n <=? length (fst g)) with false by (symmetry; apply Nat.leb_gt; lia). reflexivity.
Qed.

Lemma server_next_gone : forall s u, gget Nat.eqb (gens s) u = None -> anext s u = (s, RNoIterator).
Proof. intros s u E. unfold anext, server_next. now rewrite E. Qed.

Lemma is_uid_ok : forall h w u u', uid_of h w = Some u -> is_uid h w u' = (u =? u').
Proof. intros h w u u' E. unfold is_uid. now rewrite E. Qed.

Lemma wrap_usable : forall s h w, inv s h -> gget Nat.eqb (wraps s) w = None -> usable h w = false.
Proof.
  intros s h w I E. destruct (usable h w) eqn:U; auto. destruct (i_use _ _ I w U) as [u [gc Q]]. congruence.
Qed.

(** Events that do not change the state: on wrappers that are gone. *)
Lemma inv_noop : forall s h e w, inv s h -> gget Nat.eqb (wraps s) w = None ->
  (e = ENext w \/ e = EDestroy w \/ e = EDrop w \/ e = ETransfer w \/ e = ETransferLost w) -> inv s ((e, RNone) :: h).
Proof.
  intros s h e w I E HE. pose proof (wrap_usable s h w I E) as U.
  assert (A1 : forall u, asked ((e, RNone) :: h) u = asked h u).
  { intros u. destruct HE as [->|[->|[->|[->| ->]]]]; simpl; auto. now rewrite U. }
  assert (A2 : forall u, given_up ((e, RNone) :: h) u = given_up h u).
  { intros u. destruct HE as [->|[->|[->|[->| ->]]]]; simpl; auto; now rewrite U. }
  assert (A3 : forall x, uid_of ((e, RNone) :: h) x = uid_of h x) by reflexivity.
  assert (A4 : forall x, gen_of ((e, RNone) :: h) x = gen_of h x).
  { intros u. destruct HE as [->|[->|[->|[->| ->]]]]; reflexivity. }
  assert (A5 : forall x, usable ((e, RNone) :: h) x = usable h x).
  { intros u. destruct HE as [->|[->|[->|[->| ->]]]]; simpl; auto. destruct (Nat.eqb_spec w u); auto. congruence. }
  assert (A6 : forall x, x <> w -> owner ((e, RNone) :: h) x = owner h x).
  { intros x N. destruct HE as [->|[->|[->|[->| ->]]]]; simpl; auto. destruct (Nat.eqb_spec w x); auto. congruence. }
  destruct I. constructor.
  - intros u H. rewrite A4, A1, A2. auto.
  - intros x H. rewrite A3, A5. auto.
  - intros x u gc H. rewrite A3, A5, A6 by congruence. auto.
  - intros x. rewrite A5. auto.
  - intros x u. rewrite A3. eauto.
  - intros u H. rewrite A4, A1, A2. auto.
Qed.

Lemma inv_step : forall s h e s' r, inv s h -> step s e = (s', r) -> inv s' ((e, r) :: h).
Proof.
  intros s h e s' r I STP. destruct e as [g|w|w|w|w|w]; cbn [step] in STP.
  - (* create *)
    injection STP as <- <-. destruct (i_new_u _ _ I (next_uid s) (Nat.le_refl _)) as [G0 [GO [AS GU]]].
    destruct (i_new_w _ _ I (next_w s) (Nat.le_refl _)) as [W0 [UO US]].
    constructor; simpl.
    + intros u H. rewrite (gget_gset _ Nat.eqb_spec). destruct (Nat.eqb_spec (next_uid s) u); [lia|].
      apply (i_new_u _ _ I). lia.
    + intros w H. rewrite (gget_gset _ Nat.eqb_spec). destruct (Nat.eqb_spec (next_w s) w); [lia|].
      apply (i_new_w _ _ I). lia.
    + intros w u gc. rewrite (gget_gset _ Nat.eqb_spec). destruct (Nat.eqb_spec (next_w s) w) as [<-|N].
      * intros Q. injection Q as <- <-. repeat split; auto.
      * intros Q. destruct (i_w _ _ I w u gc Q) as [A1 [A2 [A3 A4]]]. repeat split; auto.
    + intros w. rewrite (gget_gset _ Nat.eqb_spec). destruct (Nat.eqb_spec (next_w s) w) as [<-|N].
      * intros _. eauto.
      * apply (i_use _ _ I).
    + intros w u. destruct (Nat.eqb_spec (next_w s) w) as [<-|N].
      * intros Q. injection Q as <-. lia.
      * intros Q. apply (i_uid _ _ I) in Q. lia.
    + intros u H. rewrite (gget_gset _ Nat.eqb_spec). destruct (Nat.eqb_spec (next_uid s) u) as [<-|N].
      * exists g. split; auto. rewrite GU, AS. unfold left. simpl. now destruct g.
      * destruct (i_gen _ _ I u) as [g' Q]; [lia|]. eauto.
  - (* next *)
    destruct (gget Nat.eqb (wraps s) w) as [[u gc]|] eqn:W.
    + destruct (i_w _ _ I w u gc W) as [U1 [U2 [U3 U4]]].
      assert (AS : forall u', asked ((ENext w, r) :: h) u' = if u' =? u then S (asked h u') else asked h u').
      { intros u'. simpl. rewrite U1, (is_uid_ok _ _ _ _ U2), (Nat.eqb_sym u' u). reflexivity. }
      assert (NR : forall x y, r <> RWrapper x y).
      { intros x y ->. unfold anext in STP. destruct (server_next s u) as [s2 [v|m|]]; try discriminate.
        assert (Q := f_equal snd STP); simpl in Q. destruct (contains "StopIteration" (shown m)); discriminate. }
      assert (A3 : forall x, uid_of ((ENext w, r) :: h) x = uid_of h x) by (intros; simpl; destruct r; auto; exfalso; eapply NR; eauto).
      assert (A5 : forall x, usable ((ENext w, r) :: h) x = usable h x) by (intros; simpl; destruct r; auto; exfalso; eapply NR; eauto).
      assert (A6 : forall x, owner ((ENext w, r) :: h) x = owner h x) by (intros; simpl; destruct r; auto; exfalso; eapply NR; eauto).
      assert (ST : wraps s' = wraps s /\ next_uid s' = next_uid s /\ next_w s' = next_w s /\
        (forall u', u' <> u -> gget Nat.eqb (gens s') u' = gget Nat.eqb (gens s) u') /\
        (exists g, gen_of h u = Some g /\ gget Nat.eqb (gens s') u = if given_up h u then None else left g (S (asked h u)))).
      { destruct (i_gen _ _ I u U4) as [g [G E]]. destruct (given_up h u) eqn:GU.
        - rewrite (server_next_gone _ _ E) in STP. injection STP as <- <-. repeat split; auto. exists g. auto.
        - destruct (server_next_ok s h u g I U4 G GU) as [_ [P1 [P2 [P3 P4]]]]. rewrite STP in *. simpl in *.
          repeat split; auto.
          + intros u' N. rewrite P1. destruct (Nat.eqb_spec u' u); [contradiction|auto].
          + exists g. split; auto. now rewrite P1, Nat.eqb_refl. }
      destruct ST as [S1 [S2 [S3 [S4 [g [G E]]]]]].
      constructor; rewrite ?S1, ?S2, ?S3.
      * intros u' H. rewrite AS. destruct (Nat.eqb_spec u' u); [lia|]. rewrite S4 by auto. apply (i_new_u _ _ I). auto.
      * intros x H. rewrite A3, A5. now apply (i_new_w _ _ I).
      * intros x u' gc' Q. rewrite A3, A5, A6. now apply (i_w _ _ I).
      * intros x. rewrite A5. apply (i_use _ _ I).
      * intros x u'. rewrite A3. apply (i_uid _ _ I).
      * intros u' H. rewrite AS. destruct (Nat.eqb_spec u' u) as [->|N].
        -- exists g. split; auto.
        -- rewrite S4 by auto. now apply (i_gen _ _ I).
    + injection STP as <- <-. apply (inv_noop s h _ w); auto.
  - (* destroy *)
    destruct (gget Nat.eqb (wraps s) w) as [[u gc]|] eqn:W.
    + injection STP as <- <-. destruct (i_w _ _ I w u gc W) as [U1 [U2 [U3 U4]]].
      assert (GU : forall u', given_up ((EDestroy w, RNone) :: h) u' = (u =? u') || given_up h u').
      { intros u'. simpl. now rewrite U1, (is_uid_ok _ _ _ _ U2). }
      constructor; simpl wraps; simpl next_uid; simpl next_w; try (destruct I; simpl; auto; fail).
      * intros u' H. rewrite GU. simpl gens. rewrite (gget_gdel _ Nat.eqb_spec).
        destruct (Nat.eqb_spec u u'); [lia|]. now apply (i_new_u _ _ I).
      * intros u' H. rewrite GU. simpl gens. rewrite (gget_gdel _ Nat.eqb_spec).
        destruct (i_gen _ _ I u' H) as [g [G E]]. exists g. split; auto. destruct (Nat.eqb_spec u u'); simpl; auto.
    + injection STP as <- <-. apply (inv_noop s h _ w); auto.
  - (* drop *)
    destruct (gget Nat.eqb (wraps s) w) as [[u gc]|] eqn:W.
    + injection STP as <- <-. destruct (i_w _ _ I w u gc W) as [U1 [U2 [U3 U4]]].
      assert (GU : forall u', given_up ((EDrop w, RNone) :: h) u' = gc && (u =? u') || given_up h u').
      { intros u'. simpl. now rewrite U1, U3, (is_uid_ok _ _ _ _ U2). }
      set (s1 := set_wraps s (gdel Nat.eqb (wraps s) w)).
      assert (Q1 : wraps (if gc then destroy s1 u else s1) = gdel Nat.eqb (wraps s) w) by (destruct gc; reflexivity).
      assert (Q2 : next_uid (if gc then destroy s1 u else s1) = next_uid s) by (destruct gc; reflexivity).
      assert (Q3 : next_w (if gc then destroy s1 u else s1) = next_w s) by (destruct gc; reflexivity).
      assert (Q4 : forall u', gget Nat.eqb (gens (if gc then destroy s1 u else s1)) u' =
        if gc && (u =? u') then None else gget Nat.eqb (gens s) u').
      { intros u'. destruct gc; simpl; auto. now rewrite (gget_gdel _ Nat.eqb_spec). }
      assert (US : forall x, usable ((EDrop w, RNone) :: h) x = if w =? x then false else usable h x) by reflexivity.
      constructor; rewrite ?Q1, ?Q2, ?Q3.
      * intros u' H. rewrite GU, Q4. destruct (Nat.eqb_spec u u'); [lia|]. rewrite andb_false_r. now apply (i_new_u _ _ I).
      * intros x H. rewrite US, (gget_gdel _ Nat.eqb_spec). destruct (i_new_w _ _ I x H) as [A1 [A2 A3]].
        destruct (w =? x); auto.
      * intros x u' gc'. rewrite US, (gget_gdel _ Nat.eqb_spec). destruct (Nat.eqb_spec w x); [discriminate|].
        intros Q. apply (i_w _ _ I x u' gc' Q).
      * intros x. rewrite US, (gget_gdel _ Nat.eqb_spec). destruct (Nat.eqb_spec w x); [discriminate|]. apply (i_use _ _ I).
      * intros x u'. apply (i_uid _ _ I).
      * intros u' H. rewrite GU, Q4. destruct (i_gen _ _ I u' H) as [g [G E]]. exists g. split; auto.
        destruct (gc && (u =? u')); auto.
    + injection STP as <- <-. apply (inv_noop s h _ w); auto.
  - (* transfer *)
    destruct (gget Nat.eqb (wraps s) w) as [[u gc]|] eqn:W.
    + injection STP as <- <-. destruct (i_w _ _ I w u gc W) as [U1 [U2 [U3 U4]]].
      destruct (i_new_w _ _ I (next_w s) (Nat.le_refl _)) as [W0 [UO US]].
      assert (NW : w <> next_w s) by congruence.
      constructor; simpl.
      * apply (i_new_u _ _ I).
      * intros x H. rewrite !(gget_gset _ Nat.eqb_spec). destruct (Nat.eqb_spec (next_w s) x); [lia|].
        destruct (Nat.eqb_spec w x) as [<-|].
        -- destruct (i_new_w _ _ I w) as [Q _]; [lia|congruence].
        -- apply (i_new_w _ _ I). lia.
      * intros x u' gc'. rewrite !(gget_gset _ Nat.eqb_spec). destruct (Nat.eqb_spec (next_w s) x) as [<-|N].
        -- intros Q. injection Q as <- <-. auto.
        -- destruct (Nat.eqb_spec w x) as [<-|N2].
           ++ intros Q. injection Q as <- <-. auto.
           ++ apply (i_w _ _ I).
      * intros x. rewrite !(gget_gset _ Nat.eqb_spec). destruct (Nat.eqb_spec (next_w s) x) as [<-|N]; [eauto|].
        destruct (Nat.eqb_spec w x) as [<-|N2]; eauto. apply (i_use _ _ I).
      * intros x u'. destruct (Nat.eqb_spec (next_w s) x); [intros Q; injection Q as <-; auto|apply (i_uid _ _ I)].
      * apply (i_gen _ _ I).
    + injection STP as <- <-. apply (inv_noop s h _ w); auto 6.
  - (* lost *)
    destruct (gget Nat.eqb (wraps s) w) as [[u gc]|] eqn:W.
    + injection STP as <- <-. destruct (i_w _ _ I w u gc W) as [U1 [U2 [U3 U4]]].
      constructor; simpl.
      * apply (i_new_u _ _ I).
      * intros x H. rewrite !(gget_gset _ Nat.eqb_spec). destruct (Nat.eqb_spec w x) as [<-|].
        -- destruct (i_new_w _ _ I w H) as [Q _]. congruence.
        -- now apply (i_new_w _ _ I).
      * intros x u' gc'. rewrite !(gget_gset _ Nat.eqb_spec). destruct (Nat.eqb_spec w x) as [<-|N2].
        -- intros Q. injection Q as <- <-. auto.
        -- apply (i_w _ _ I).
      * intros x. rewrite !(gget_gset _ Nat.eqb_spec). destruct (Nat.eqb_spec w x) as [<-|N2]; eauto. apply (i_use _ _ I).
      * apply (i_uid _ _ I).
      * apply (i_gen _ _ I).
    + injection STP as <- <-. apply (inv_noop s h _ w); auto 6.
Qed.

Lemma reach_inv : forall s h, reach s h -> inv s h.
Proof. induction 1; [apply inv_init|eapply inv_step; eauto]. Qed.

(** [sub] occurs in [s]. *)
Definition mentions (sub s : string) : Prop := exists a b, s = String.append a (String.append sub b).
Lemma prefix_append sub : forall s, prefix sub s = true <-> exists b, s = String.append sub b.
Proof.
  induction sub as [|d sub IH]; intros s.
  - split; [intros _; now exists s|]. intros _. now destruct s.
  - destruct s as [|c s]; cbn [prefix String.append].
    + split; [discriminate|]. intros (b & E). discriminate.
    + destruct (Ascii.ascii_dec d c) as [->|N].
      * rewrite IH. split; intros (b & E); exists b; [now rewrite E|now injection E].
      * split; [discriminate|]. intros (b & E). injection E. congruence.
Qed.
Lemma contains_spec sub s : contains sub s = true <-> mentions sub s.
Proof.
  unfold mentions. induction s as [|c s IH]; cbn [contains]; rewrite orb_true_iff, prefix_append.
  - split.
    + intros [(b & E)|H]; [|discriminate]. exists ""%string, b. exact E.
    + intros (a & b & E). left. exists b. destruct a; [exact E|discriminate].
  - rewrite IH. split.
    + intros [(b & E)|(a & b & ->)]; [exists ""%string, b; exact E|now exists (String c a), b].
    + intros (a & b & E). destruct a as [|d a]; [left; eauto|right]. injection E as -> ->. eauto.
Qed.
(** The label in front of the text of a remote error does not matter. *)
Lemma shown_contains m : contains "StopIteration" (shown m) = contains "StopIteration" m.
Proof. reflexivity. Qed.

(** What the [n]-th next shows (from 0): the items, then the end or the error, where an
    error whose text mentions StopIteration looks like the end; then an error. *)
Definition seen (g : gen) (n : nat) (r : out) : Prop :=
  match nth_error (fst g) n with
  | Some v => r = RItem v
  | None =>
      if n =? length (fst g) then
        match snd g with
        | Return => r = RStop
        | Raises m => (mentions "StopIteration" m -> r = RStop) /\ (~ mentions "StopIteration" m -> r = RError m)
        end
      else r = RNoIterator
  end.
Lemma seen_ok g n : seen g n (seen_b g n).
Proof.
  unfold seen, seen_b. destruct (nth_error (fst g) n); [reflexivity|]. destruct (n =? length (fst g)); [|reflexivity].
  destruct (snd g) as [|m]; [reflexivity|]. rewrite shown_contains, <- contains_spec.
  destruct (contains "StopIteration" m); split; congruence.
Qed.

(** The exact behaviour: items in order, the end or the error, then "no iterator". *)
Theorem C28_exact_partial : forall s h w u g, reach s h ->
  usable h w = true -> uid_of h w = Some u -> gen_of h u = Some g -> given_up h u = false ->
  seen g (asked h u) (snd (step s (ENext w))).
Proof.
  intros s h w u g R U1 U2 G N. apply reach_inv in R. destruct (i_use _ _ R w U1) as [u' [gc W]].
  destruct (i_w _ _ R w u' gc W) as [_ [Q [_ L]]]. rewrite U2 in Q. injection Q as <-.
  cbn [step]. rewrite W. rewrite (proj1 (server_next_ok s h u g R L G N)). apply seen_ok.
Qed.

(** C28, proved for every next up to the first end, if the generator does not fail
    with a message that mentions "StopIteration". *)
Theorem C28_items_in_order_partial : forall s h w u g, reach s h ->
  usable h w = true -> uid_of h w = Some u -> gen_of h u = Some g -> given_up h u = false ->
  asked h u <= length (fst g) ->
  (forall m, snd g = Raises m -> ~ mentions "StopIteration" m) ->
  snd (step s (ENext w)) = wanted g (asked h u).
Proof.
  intros s h w u g R U1 U2 G N L C. assert (H := C28_exact_partial s h w u g R U1 U2 G N). unfold seen in H. unfold wanted.
  destruct (nth_error (fst g) (asked h u)) eqn:E; auto. apply nth_error_None in E.
  destruct (Nat.eqb_spec (asked h u) (length (fst g))); [|lia].
  destruct (snd g) as [|m]; auto. now apply H, C.
Qed.

(** Each wrapper's generator was created; what other generators do has no
    influence: the statements above depend on this generator's history only.  A
    generator that was given up gives no items. *)
Theorem C28_given_up : forall s h w u, reach s h ->
  usable h w = true -> uid_of h w = Some u -> given_up h u = true ->
  snd (step s (ENext w)) = RNoIterator.
Proof.
  intros s h w u R U1 U2 N. apply reach_inv in R. destruct (i_use _ _ R w U1) as [u' [gc W]].
  destruct (i_w _ _ R w u' gc W) as [_ [Q [_ L]]]. rewrite U2 in Q. injection Q as <-.
  simpl. rewrite W. destruct (i_gen _ _ R u L) as [g [_ E]]. rewrite N in E. now rewrite server_next_gone.
Qed.

(** Storage.  After the end (or the error) was reported, or after giving up, the
    actor stores the generator no more. *)
Theorem C28_released_at_the_end : forall s h u g, reach s h -> gen_of h u = Some g ->
  length (fst g) < asked h u \/ given_up h u = true -> gget Nat.eqb (gens s) u = None.
Proof.
  intros s h u g R G H. apply reach_inv in R.
  assert (L : u < next_uid s). { destruct (le_lt_dec (next_uid s) u); auto. destruct (i_new_u _ _ R u l) as [_ [Q _]]. congruence. }
  destruct (i_gen _ _ R u L) as [g' [G' E]]. rewrite G in G'. injection G' as <-. rewrite E.
  destruct (given_up h u); auto. destruct H as [H|H]; [|discriminate]. unfold left.
  destruct (Nat.leb_spec (asked h u) (length (fst g))); auto. lia.
Qed.

(** If every wrapper was dropped, nothing is stored: in full, and proved for
    histories in which every wrapper sent arrives. *)
Definition C28_storage_claim : Prop := forall s h, reach s h ->
  (forall w, usable h w = false) -> gens s = [].

Lemma owned : forall s h, reach s h -> (forall w r, ~ In (ETransferLost w, r) h) ->
  forall u, gget Nat.eqb (gens s) u <> None -> exists w, gget Nat.eqb (wraps s) w = Some (u, true).
Proof.
  induction 1 as [|s h e s' r R IH S]; intros NL u H; [simpl in H; congruence|].
  assert (NL' : forall w r, ~ In (ETransferLost w, r) h) by (intros w' r' Q; apply (NL w' r'); now right).
  specialize (IH NL'). apply reach_inv in R. destruct e as [g|w|w|w|w|w]; cbn [step] in S.
  - injection S as <- <-. simpl in *. rewrite (gget_gset _ Nat.eqb_spec) in H.
    destruct (Nat.eqb_spec (next_uid s) u) as [EQ|N]; [rewrite <- EQ|].
    + exists (next_w s). now rewrite (gget_gset _ Nat.eqb_spec), Nat.eqb_refl.
    + destruct (IH u H) as [w W]. exists w. rewrite (gget_gset _ Nat.eqb_spec).
      destruct (Nat.eqb_spec (next_w s) w) as [<-|]; auto.
      destruct (i_new_w _ _ R (next_w s) (Nat.le_refl _)). congruence.
  - destruct (gget Nat.eqb (wraps s) w) as [[u' gc]|] eqn:W; [|injection S as <- <-; auto].
    assert (Q : wraps s' = wraps s /\ (gget Nat.eqb (gens s) u = None -> gget Nat.eqb (gens s') u = None)).
    { unfold anext, server_next in S. destruct (gget Nat.eqb (gens s) u') as [[[|v vs] [|m]]|] eqn:G;
        injection S as <- <-; simpl; split; auto; intros N; rewrite ?(gget_gdel _ Nat.eqb_spec), ?(gget_gset _ Nat.eqb_spec);
        destruct (Nat.eqb_spec u' u); auto; congruence. }
    destruct Q as [Q1 Q2]. rewrite Q1. apply IH. auto.
  - destruct (gget Nat.eqb (wraps s) w) as [[u' gc]|] eqn:W; [|injection S as <- <-; auto].
    injection S as <- <-. simpl in *. apply IH. intros N. apply H. rewrite (gget_gdel _ Nat.eqb_spec). now destruct (u' =? u).
  - destruct (gget Nat.eqb (wraps s) w) as [[u' gc]|] eqn:W; [|injection S as <- <-; auto].
    injection S as <- <-.
    assert (X : gget Nat.eqb (gens s) u <> None /\ ~ (gc = true /\ u' = u)).
    { destruct gc; simpl in H; [rewrite (gget_gdel _ Nat.eqb_spec) in H; destruct (Nat.eqb_spec u' u)|]; split; auto; intros [A B]; congruence. }
    destruct X as [X1 X2]. destruct (IH u X1) as [x E]. exists x.
    assert (WS : wraps (if gc then destroy (set_wraps s (gdel Nat.eqb (wraps s) w)) u' else set_wraps s (gdel Nat.eqb (wraps s) w))
      = gdel Nat.eqb (wraps s) w) by (destruct gc; reflexivity).
    rewrite WS, (gget_gdel _ Nat.eqb_spec). destruct (Nat.eqb_spec w x) as [<-|]; auto.
    exfalso. rewrite W in E. injection E as -> ->. auto.
  - destruct (gget Nat.eqb (wraps s) w) as [[u' gc]|] eqn:W; [|injection S as <- <-; auto].
    injection S as <- <-. simpl in *. destruct (IH u H) as [x E].
    destruct (i_new_w _ _ R (next_w s) (Nat.le_refl _)) as [NW _].
    destruct (Nat.eq_dec x w) as [->|N].
    + rewrite W in E. injection E as -> ->. exists (next_w s). now rewrite !(gget_gset _ Nat.eqb_spec), Nat.eqb_refl.
    + exists x. rewrite !(gget_gset _ Nat.eqb_spec). destruct (Nat.eqb_spec (next_w s) x); [congruence|].
      destruct (Nat.eqb_spec w x); [congruence|auto].
  - exfalso. apply (NL w r). now left.
Qed.

Theorem C28_storage_partial : forall s h, reach s h -> (forall w r, ~ In (ETransferLost w, r) h) ->
  (forall w, usable h w = false) -> gens s = [].
Proof.
  intros s h R NL D. destruct (gens s) as [|[u g] l] eqn:E; auto. exfalso.
  destruct (owned s h R NL u) as [w W].
  - rewrite E. simpl. rewrite Nat.eqb_refl. discriminate.
  - apply reach_inv in R. destruct (i_w _ _ R _ _ _ W) as [Q _]. rewrite D in Q. discriminate.
Qed.

Module Demo.
  Fixpoint run (s : st) (h : history) (l : list ev) : st * history :=
    match l with
    | [] => (s, h)
    | e :: l' => let (s', r) := step s e in run s' ((e, r) :: h) l'
    end.
  Lemma run_reach : forall l s h, reach s h -> reach (fst (run s h l)) (snd (run s h l)).
  Proof.
    induction l as [|e l IH]; intros s h R; simpl; auto.
    destruct (step s e) as [s' r] eqn:E. apply IH. econstructor; eauto.
  Qed.
  Definition g1 : gen := ([10; 11; 12], Raises "boom").
  (** two generators, the first is read twice, sent on and read again *)
  Definition sh := run init [] [ECreate g1; ECreate ([20], Return); ENext 0; ENext 1; ENext 0; ETransfer 0; ENext 2; ENext 1].
  Example reachable : reach (fst sh) (snd sh).
  Proof. apply run_reach. constructor. Qed.
  Example meets : usable (snd sh) 2 = true /\ uid_of (snd sh) 2 = Some 0 /\ gen_of (snd sh) 0 = Some g1 /\
    given_up (snd sh) 0 = false /\ asked (snd sh) 0 = 3 /\
    (forall m, snd g1 = Raises m -> ~ mentions "StopIteration" m) /\
    snd (step (fst sh) (ENext 2)) = RError "boom" /\
    map fst (gens (fst sh)) = [0].
  Proof.
    repeat split; try (vm_compute; reflexivity). intros m Q. injection Q as <-. rewrite <- contains_spec. vm_compute. discriminate.
  Qed.
  Definition done := run init [] [ECreate g1; ENext 0; ETransfer 0; EDrop 0; EDrop 1].
  Example storage_hyp : (forall w, usable (snd done) w = false) /\ (forall w r, ~ In (ETransferLost w, r) (snd done)).
  Proof.
    split.
    - intros [|[|w]]; reflexivity.
    - intros w r H. simpl in H. repeat (destruct H as [H|H]; [discriminate|]). exact H.
  Qed.
End Demo.

(** Python's own error for a StopIteration that escapes inside a generator (PEP
    479) is taken for the end of the items. *)
Theorem C28_error_ends_silently_refuted : ~ C28_claim.
Proof.
  intros C. pose (g := ([1; 2], Raises "generator raised StopIteration") : gen).
  pose (sh := Demo.run init [] [ECreate g; ENext 0; ENext 0]).
  assert (R : reach (fst sh) (snd sh)) by (apply Demo.run_reach; constructor).
  assert (H := C (fst sh) (snd sh) 0 0 g R ltac:(vm_compute; reflexivity) ltac:(vm_compute; reflexivity)
    ltac:(vm_compute; reflexivity) ltac:(vm_compute; reflexivity)).
  vm_compute in H. discriminate H.
Qed.
(** The next after the end is an error, not the end again. *)
Theorem C28_next_after_end_refuted : exists s h g, reach s h /\ usable h 0 = true /\ uid_of h 0 = Some 0 /\
  gen_of h 0 = Some g /\ given_up h 0 = false /\ snd g = Return /\
  snd (step s (ENext 0)) = RNoIterator /\ wanted g (asked h 0) = RStop.
Proof.
  pose (sh := Demo.run init [] [ECreate ([1], Return); ENext 0; ENext 0]).
  exists (fst sh), (snd sh), ([1], Return). split; [apply Demo.run_reach; constructor|].
  repeat split; vm_compute; reflexivity.
Qed.
Theorem C28_lost_wrapper_refuted : ~ C28_storage_claim.
Proof.
  intros C. pose (sh := Demo.run init [] [ECreate ([1], Return); ETransferLost 0; EDrop 0]).
  assert (R : reach (fst sh) (snd sh)) by (apply Demo.run_reach; constructor).
  assert (H := C (fst sh) (snd sh) R). discriminate H. intros [|w]; reflexivity.
Qed.

Print Assumptions C28_exact_partial.
Print Assumptions C28_items_in_order_partial.
Print Assumptions C28_given_up.
Print Assumptions C28_released_at_the_end.
Print Assumptions C28_storage_partial.
Print Assumptions C28_error_ends_silently_refuted.
Print Assumptions C28_next_after_end_refuted.
Print Assumptions C28_lost_wrapper_refuted.
