(** C22, C23, C24: copy_to.

    Reading guide.  [copy_buffers]/[copy_files] of [CopyModel] are copy_to with a
    list of buffers or files; [inr] is an exception, [inl st] is a normal return with
    the buffers (files) of the receiving process as they are then.  [env n] is what
    the receiving process does on its own before the n-th message arrives. *)
From Coq Require Import List Arith Bool Lia.
From Verif Require Import Base Dict CopyModel CopyProofs.
Import ListNotations.

(** What copy_to accepts. *)
Definition acceptable {X} (locals : list X) (refs : list (nat * nat)) (block_size : option nat) : Prop :=
  locals <> [] /\ length locals = length refs /\
  (forall r1 r2, In r1 refs -> In r2 refs -> fst r1 = fst r2) /\ block_size <> Some 0.

Lemma check_iff : forall X (locals : list X) refs bs, check locals refs bs = None <-> acceptable locals refs bs.
Proof.
  intros X locals refs bs. unfold check, acceptable. destruct locals as [|x l]; simpl.
  { split; [discriminate|intros [N _]; congruence]. }
  destruct refs as [|[a u] refs]; simpl.
  { split; [discriminate|intros [_ [N _]]; discriminate]. }
  rewrite Nat.eqb_refl. simpl.
  destruct (forallb (fun r => fst r =? a) refs) eqn:F; simpl.
  - rewrite forallb_forall in F.
    assert (S : forall r, (a, u) = r \/ In r refs -> fst r = a).
    { intros r [<-|I]; auto. apply F in I. now apply Nat.eqb_eq. }
    destruct (Nat.eqb_spec (length l) (length refs)) as [E|E]; simpl.
    + split.
      * intros Q. repeat split; auto; try congruence.
        -- intros r1 r2 I1 I2. rewrite (S r1), (S r2); auto.
        -- destruct bs as [[|b]|]; congruence.
      * intros [_ [_ [_ Q]]]. destruct bs as [[|b]|]; congruence.
    + split; [discriminate|]. intros [_ [Q _]]. congruence.
  - split; [discriminate|]. intros [_ [_ [Q _]]]. exfalso.
    assert (forallb (fun r => fst r =? a) refs = true); [|congruence].
    apply forallb_forall. intros r I. apply Nat.eqb_eq. apply (Q r (a, u)); auto.
Qed.
Lemma eff_pos : forall d bs, 0 < d -> 0 < effective d bs.
Proof. intros d [[|b]|] D; simpl; lia. Qed.

Section S.
  Variable A : Type.
  Variable default : nat.   (** DEFAULT_TRANSFER_BLOCK_SIZE *)
  Hypothesis default_pos : 0 < default.
  Notation buf := (buf A).

  (** C22, in full. *)
  Definition C22_claim : Prop := forall (locals : list buf) refs bs env st st',
    copy_buffers A default locals refs bs env st = inl st' ->
    forall i a u b, nth_error refs i = Some (a, u) -> nth_error locals i = Some b -> gget Nat.eqb st' u = Some b.

  (** The buffers that [refs] refer to exist, have the sizes of the local ones, are
      different, and are not touched by the receiving process itself. *)
  Definition ready (locals : list buf) (refs : list (nat * nat)) (env : nat -> store A -> store A) (st : store A) : Prop :=
    NoDup (map snd refs) /\
    (forall i a u b, nth_error refs i = Some (a, u) -> nth_error locals i = Some b ->
       exists old, gget Nat.eqb st u = Some old /\ length old = length b) /\
    (forall n x u, In u (map snd refs) -> gget Nat.eqb (env n x) u = gget Nat.eqb x u).

  Lemma combine_nth : forall X Y (l1 : list X) (l2 : list Y) i x y, nth_error l1 i = Some x -> nth_error l2 i = Some y ->
    In (x, y) (combine l1 l2).
  Proof.
    induction l1 as [|a l1 IH]; destruct l2 as [|b l2]; destruct i; simpl; intros x y H1 H2; try discriminate.
    - left. congruence.
    - right. eauto.
  Qed.
  Lemma combine_nth_inv : forall X Y (l1 : list X) (l2 : list Y) x y, In (x, y) (combine l1 l2) ->
    exists i, nth_error l1 i = Some x /\ nth_error l2 i = Some y.
  Proof.
    induction l1 as [|a l1 IH]; destruct l2 as [|b l2]; simpl; intros x y I; try contradiction.
    destruct I as [I|I]; [inversion I; exists 0; auto|]. destruct (IH _ _ _ I) as [i [I1 I2]]. exists (S i). auto.
  Qed.
  Lemma nth_snd : forall (refs : list (nat * nat)) i u, nth_error (map snd refs) i = Some u -> exists a, nth_error refs i = Some (a, u).
  Proof.
    induction refs as [|[a v] refs IH]; destruct i; simpl; intros u E; try discriminate.
    - inversion E; subst. eauto.
    - eauto.
  Qed.
  Lemma fst_combine : forall X Y (l1 : list X) (l2 : list Y), length l2 = length l1 -> map fst (combine l1 l2) = l1.
  Proof. induction l1; destruct l2; simpl; intros; try discriminate; auto. f_equal. auto. Qed.

  Theorem C22_copied_partial : forall (locals : list buf) refs bs env st,
    acceptable locals refs bs -> ready locals refs env st ->
    exists st', copy_buffers A default locals refs bs env st = inl st' /\
      forall i a u b, nth_error refs i = Some (a, u) -> nth_error locals i = Some b -> gget Nat.eqb st' u = Some b.
  Proof.
    intros locals refs bs env st AC [ND [RD EN]]. unfold copy_buffers.
    pose proof AC as AC0. apply check_iff in AC. rewrite AC. destruct AC0 as [_ [LEN _]].
    set (l := combine (map snd refs) locals).
    assert (FC : map fst l = map snd refs) by (apply fst_combine; now rewrite map_length).
    destruct (messages_ok A (effective default bs) l (eff_pos _ _ default_pos)) as [ms [E C]]. rewrite E.
    eexists. split; [reflexivity|].
    destruct (all_write A l (concat ms) C) with (st := st) as [W1 [W2 W3]].
    { now rewrite FC. }
    { intros u b I. apply combine_nth_inv in I. destruct I as [i [I1 I2]]. apply nth_snd in I1. destruct I1 as [a I1]. eauto. }
    intros i a u b R L.
    assert (IU : In u (map snd refs)) by (apply (in_map snd refs (a, u)); eapply nth_error_In; eauto).
    rewrite <- (W2 u b).
    - symmetry. apply (deliver_ok A (map snd refs)); auto.
      + intros n x v Iv. symmetry. now apply EN.
      + intros p Ip. rewrite <- FC. eapply all_covers_uid; eauto.
    - apply combine_nth with (i := i); auto. rewrite nth_error_map, R. reflexivity.
  Qed.

  (** Nothing else is written. *)
  Theorem C22_nothing_else : forall (locals : list buf) refs bs st st',
    copy_buffers A default locals refs bs (fun _ x => x) st = inl st' ->
    forall u, ~ In u (map snd refs) -> gget Nat.eqb st' u = gget Nat.eqb st u.
  Proof.
    intros locals refs bs st st' E u N. unfold copy_buffers in E.
    destruct (check locals refs bs) eqn:CK; [discriminate|]. apply check_iff in CK. destruct CK as [_ [LEN _]].
    destruct (messages_ok A (effective default bs) (combine (map snd refs) locals) (eff_pos _ _ default_pos)) as [ms [M C]].
    rewrite M in E. inversion E; subst st'. clear E M.
    assert (PU : forall p, In p (concat ms) -> p_uid p <> u).
    { intros p I Q. apply N. rewrite <- (fst_combine _ _ (map snd refs) locals) by now rewrite map_length.
      rewrite <- Q. eapply all_covers_uid; eauto. }
    clear C LEN. generalize 0 as n.
    assert (HA : forall m st, (forall p, In p m -> p_uid p <> u) -> gget Nat.eqb (fst (handle A st m)) u = gget Nat.eqb st u).
    { induction m as [|p m IH]; simpl; intros x Q; auto. destruct (write A x p) as [x'|e] eqn:W; auto.
      rewrite IH by auto. unfold write in W. destruct (gget Nat.eqb x (p_uid p)); [|discriminate].
      destruct (_ =? _) in W; [|discriminate]. inversion W. rewrite gg. specialize (Q p (or_introl eq_refl)).
      destruct (Nat.eqb_spec (p_uid p) u); congruence. }
    revert st. induction ms as [|m ms IH]; simpl; intros st n; auto.
    rewrite IH; [apply HA|]; intros p I; apply PU; simpl; apply in_or_app; auto.
  Qed.

  (** Wrong arguments are refused before anything is sent. *)
  Theorem C22_checked : forall (locals : list buf) refs bs env st,
    (exists e, copy_buffers A default locals refs bs env st = inr e) <-> ~ acceptable locals refs bs.
  Proof.
    intros locals refs bs env st. rewrite <- check_iff. unfold copy_buffers.
    destruct (check locals refs bs) as [e|].
    - split; [discriminate|eauto].
    - destruct (messages_ok A (effective default bs) (combine (map snd refs) locals) (eff_pos _ _ default_pos)) as [ms [M _]].
      rewrite M. split; [intros [e E]; discriminate|congruence].
  Qed.

  (** C23, in full.  [payload]: the total length of the data of a message. *)
  Definition C23_claim : Prop := forall block (l : list (nat * buf)) ms, 0 < block ->
    messages A block l = Some ms -> Forall (fun m => payload A m <= block) ms.

  (** Proved when no proper prefix of the buffers fills whole blocks exactly: the
      sizes of the first k buffers never add up to a positive multiple of the block
      size, except for all buffers together. *)
  Theorem C23_block_size_partial : forall block (l : list (nat * buf)) ms, 0 < block ->
    messages A block l = Some ms ->
    (forall k, k < length l -> total A (firstn k l) = 0 \/ total A (firstn k l) mod block <> 0) ->
    Forall (fun m => payload A m <= block) ms.
  Proof.
    intros block l ms B E T. unfold messages in E.
    destruct (blocks_ok A block B l {| cur := 0; data := []; sent := [] |} 0) as [s' [P1 [P2 P3]]]; simpl; auto.
    - apply Nat.mod_0_l. lia.
    - intros k K. apply T. lia.
    - rewrite P1 in E. inversion E. destruct (data s'); auto. apply Forall_app. auto.
  Qed.

  (** Single pieces always fit. *)
  Theorem C23_pieces_partial : forall block (l : list (nat * buf)) ms, 0 < block ->
    messages A block l = Some ms -> forall m p, In m ms -> In p m -> length (p_data p) <= block.
  Proof.
    intros block l ms B E.
    assert (PUT : forall l s s', cur s <= block -> (forall m p, In m (data s :: sent s) -> In p m -> length (p_data p) <= block) ->
      put_all A block s l = Some s' -> forall m p, In m (data s' :: sent s') -> In p m -> length (p_data p) <= block).
    { clear l ms E. induction l as [|[uid b] l IH]; intros s s' CL IN E; cbn [put_all] in E; [inversion E; subst; auto|].
      destruct (put A block s (uid, b)) as [s1|] eqn:P1; [|discriminate].
      assert (C1 : cur s1 <= block).
      { destruct (put_ok A block uid b s B CL) as [s2 [ps [Q [Q2 _]]]]. congruence. }
      apply (IH s1 s'); auto. clear IH E. unfold put in P1.
      destruct (Nat.ltb_spec (cur s + length b) block) as [G|G].
      - inversion P1; subst s1. simpl. intros m p [<-|I] Ip; [|apply (IN m); simpl; auto].
        apply in_app_or in Ip. destruct Ip as [Ip|[<-|[]]]; [apply (IN (data s)); simpl; auto|]. simpl. lia.
      - assert (CH : forall fuel start s b s2 st2 rest, cur s <= block ->
          (forall m p, In m (data s :: sent s) -> In p m -> length (p_data p) <= block) ->
          chop A fuel block uid start s b = Some (s2, st2, rest) ->
          (forall m p, In m (data s2 :: sent s2) -> In p m -> length (p_data p) <= block) /\ length rest <= block).
        { clear. intros fuel. induction fuel as [|f IH]; intros start s b s2 st2 rest CL IN E; cbn [chop] in E;
            destruct (Nat.ltb_spec block (cur s + length b)) as [G|G]; try discriminate.
          - inversion E; subst. split; auto. lia.
          - eapply IH in E; [exact E|simpl; lia|]. simpl. intros m p [<-|I] Ip; [contradiction|].
            apply in_app_or in I. destruct I as [I|[<-|[]]]; [apply (IN m); simpl; auto|].
            apply in_app_or in Ip. destruct Ip as [Ip|[<-|[]]]; [apply (IN (data s)); simpl; auto|].
            simpl. rewrite firstn_length. lia.
          - inversion E; subst. split; auto. lia. }
        destruct (chop A (S (length b)) block uid 0 s b) as [[[s2 st2] rest]|] eqn:CE; [|discriminate].
        destruct (CH _ _ _ _ _ _ _ CL IN CE) as [IN2 LR].
        destruct (0 <? length rest); inversion P1; subst s1; auto. simpl.
        intros m p [<-|I] Ip; [|apply (IN2 m); simpl; auto].
        apply in_app_or in Ip. destruct Ip as [Ip|[<-|[]]]; [apply (IN2 (data s2)); simpl; auto|]. exact LR. }
    unfold messages in E. destruct (put_all A block _ l) as [s'|] eqn:PA; [|discriminate].
    assert (Z : forall m p, In m (data s' :: sent s') -> In p m -> length (p_data p) <= block).
    { eapply PUT; [| |exact PA]; simpl; [lia|]. intros m p [<-|[]] []. }
    intros m p I Ip. apply (Z m); auto. inversion E; subst ms. destruct (data s') eqn:D; simpl; auto.
    apply in_app_or in I. destruct I as [I|[<-|[]]]; auto.
  Qed.

  (** False: with block size 2, any number of one-item buffers goes into one
      message. *)
  Theorem C23_unbounded_refuted : forall (x : A) n, 0 < n ->
    exists m, messages A 2 (map (fun u => (u, [x])) (seq 0 n)) = Some [m] /\ payload A m = n.
  Proof.
    intros x n N.
    assert (G : forall k u d, payload A d = u -> 0 < u -> exists d',
      put_all A 2 {| cur := 1; data := d; sent := [] |} (map (fun v => (v, [x])) (seq u k)) =
        Some {| cur := 1; data := d'; sent := [] |} /\ payload A d' = u + k /\ d' <> []).
    { induction k as [|k IH]; intros u d P U.
      - exists d. simpl. repeat split; [lia|]. intros ->. unfold payload in P. simpl in P. lia.
      - simpl seq. simpl map. cbn [put_all put cur length Nat.add Nat.ltb Nat.leb chop].
        cbn [data sent]. destruct (IH (S u) (d ++ [{| p_uid := u; p_start := 0; p_len := 1; p_data := [x] |}])) as [d' [E1 [E2 E3]]].
        + rewrite payload_app, P. unfold payload. simpl. lia.
        + lia.
        + exists d'. rewrite E1. repeat split; auto. lia. }
    destruct n as [|n]; [lia|]. unfold messages. simpl seq. simpl map.
    cbn [put_all put cur length Nat.add Nat.ltb Nat.leb data sent app].
    destruct (G n 1 [{| p_uid := 0; p_start := 0; p_len := 1; p_data := [x] |}]) as [d' [E1 [E2 E3]]]; [reflexivity|lia|].
    rewrite E1. cbn [data sent]. destruct d' as [|p d']; [congruence|]. exists (p :: d'). split; auto.
  Qed.
  Theorem C23_block_size_refuted : forall x : A, ~ C23_claim.
  Proof.
    intros x CL. destruct (C23_unbounded_refuted x 3) as [m [E1 E2]]; [lia|].
    apply CL in E1; [|lia]. inversion E1; subst. rewrite E2 in *. lia.
  Qed.

  (** C24.  [content f]: the data that reading the local file to its end gives;
      [proper f]: read returns no empty data before the end.  The value of the
      receiving side is the list of pieces written to each file. *)
  Definition C24_claim : Prop := forall (locals : list (file A)) refs bs env st st',
    Forall (proper A) locals ->
    copy_files A default locals refs bs env st = inl st' ->
    forall i a u f ws, nth_error refs i = Some (a, u) -> nth_error locals i = Some f -> NoDup (map snd refs) ->
    gget Nat.eqb st u = Some ws -> exists new, gget Nat.eqb st' u = Some (ws ++ new) /\ concat new = content A f.

  (** The files that [refs] refer to exist and are not written by others. *)
  Definition files_ready (refs : list (nat * nat)) (env : nat -> fstore A -> fstore A) (st : fstore A) : Prop :=
    (forall u, In u (map snd refs) -> gget Nat.eqb st u <> None) /\
    (forall n x u, In u (map snd refs) -> gget Nat.eqb (env n x) u = gget Nat.eqb x u).

  Theorem C24_files_partial : forall (locals : list (file A)) refs bs env st,
    acceptable locals refs bs -> Forall (proper A) locals -> files_ready refs env st ->
    exists st', copy_files A default locals refs bs env st = inl st' /\
      forall u ws, In u (map snd refs) -> gget Nat.eqb st u = Some ws ->
        exists new, gget Nat.eqb st' u = Some (ws ++ new) /\
          concat new = concat (map (fun r => content A (snd r))
                         (filter (fun r => snd (fst r) =? u) (combine refs locals))) /\
          Forall (fun d => length d <= effective default bs) new.
  Proof.
    intros locals refs bs env st AC PR [EX EN]. unfold copy_files.
    pose proof AC as AC0. apply check_iff in AC. rewrite AC. destruct AC0 as [_ [LEN _]].
    set (l := combine (map snd refs) locals).
    assert (FC : map fst l = map snd refs) by (apply fst_combine; now rewrite map_length).
    destruct (fmessages_ok A (effective default bs) l (eff_pos _ _ default_pos)) as [ms [E [C _]]].
    { unfold l. clear -PR. revert refs. induction PR as [|f locals P1 PR IH]; intros [|r refs]; simpl; constructor; auto. }
    rewrite E. eexists. split; [reflexivity|]. intros u ws Iu G.
    exists (for_uid A u (concat ms)). split; [|destruct (all_files_for A _ _ _ C u) as [F1 F2]; split; auto].
    - apply (fdeliver_ok A (map snd refs)); auto.
      + intros n x v Iv. symmetry. now apply EN.
      + intros p Ip. rewrite <- FC. eapply all_files_uid; eauto.
    - rewrite F1. f_equal. unfold l. clear. revert locals.
      induction refs as [|[a v] refs IH]; intros [|f locals]; simpl; auto.
      destruct (v =? u); simpl; now rewrite IH.
  Qed.

  (** Different files: each gets the content of its own. *)
  Theorem C24_each_file_partial : forall (locals : list (file A)) refs bs env st,
    acceptable locals refs bs -> Forall (proper A) locals -> files_ready refs env st -> NoDup (map snd refs) ->
    exists st', copy_files A default locals refs bs env st = inl st' /\
      forall i a u f ws, nth_error refs i = Some (a, u) -> nth_error locals i = Some f -> gget Nat.eqb st u = Some ws ->
        exists new, gget Nat.eqb st' u = Some (ws ++ new) /\ concat new = content A f /\
          Forall (fun d => length d <= effective default bs) new.
  Proof.
    intros locals refs bs env st AC PR FR ND.
    destruct (C24_files_partial locals refs bs env st AC PR FR) as [st' [E W]]. exists st'. split; auto.
    intros i a u f ws R L G.
    assert (IU : In u (map snd refs)) by (apply (in_map snd refs (a, u)); eapply nth_error_In; eauto).
    destruct (W u ws IU G) as [new [N1 [N2 N3]]]. exists new. split; auto. split; auto. rewrite N2.
    clear - ND R L. revert locals i R L. induction refs as [|[a' v] refs IH]; intros locals i R L; [destruct i; discriminate|].
    destruct locals as [|g locals]; [destruct i; discriminate|]. simpl in ND. apply NoDup_cons_iff in ND. destruct ND as [N1 N2].
    assert (NONE : forall (refs : list (nat * nat)) (locals : list (file A)), ~ In u (map snd refs) -> filter (fun r => snd (fst r) =? u) (combine refs locals) = []).
    { clear. induction refs as [|[a v] refs IH]; intros [|g locals] N; simpl in *; auto.
      destruct (Nat.eqb_spec v u); [tauto|]. auto. }
    destruct i as [|i]; simpl in *.
    - inversion R; inversion L; subst. rewrite Nat.eqb_refl. simpl. rewrite NONE by auto. simpl. apply app_nil_r.
    - destruct (Nat.eqb_spec v u) as [->|NE].
      + exfalso. apply N1. apply (in_map snd refs (a, u)). eapply nth_error_In; eauto.
      + simpl. eapply IH; eauto.
  Qed.

  (** A message with data for a file that is not there is answered with an error, and no other: the pieces before the first such one have been written. *)
  Theorem C24_unknown_file_reported : forall (m : list (fpiece A)) st,
    (snd (fhandle A st m) = None <-> forall p, In p m -> gget Nat.eqb st (f_uid p) <> None) /\
    (forall m1 p m2, m = m1 ++ p :: m2 -> (forall q, In q m1 -> gget Nat.eqb st (f_uid q) <> None) -> gget Nat.eqb st (f_uid p) = None ->
       fhandle A st m = (fst (fhandle A st m1), Some KeyError)).
  Proof.
    assert (K : forall st u (x : list (list A)) v, gget Nat.eqb st u <> None -> (gget Nat.eqb (gset Nat.eqb st u x) v = None <-> gget Nat.eqb st v = None)).
    { intros st u x v N. rewrite gg. destruct (Nat.eqb_spec u v) as [->|]; [|tauto]. split; [discriminate|contradiction]. }
    intros m st. split.
    - revert st. induction m as [|p m IH]; intros st; cbn [fhandle]; [split; [intros _ p []|auto]|].
      destruct (gget Nat.eqb st (f_uid p)) as [ws|] eqn:G.
      + rewrite IH. assert (GN : gget Nat.eqb st (f_uid p) <> None) by congruence. split; intros H q I.
        * destruct I as [<-|I]; auto. specialize (H q I). rewrite K in H by auto. exact H.
        * rewrite K by auto. apply H. now right.
      + split; [discriminate|]. intros H. elim (H p); [now left|exact G].
    - intros m1. revert m st. induction m1 as [|q m1 IH]; intros m st p m2 -> H G; cbn [app fhandle]; [now rewrite G|].
      destruct (gget Nat.eqb st (f_uid q)) as [ws|] eqn:GQ; [|elim (H q); [now left|exact GQ]].
      assert (GN : gget Nat.eqb st (f_uid q) <> None) by congruence.
      eapply IH; [reflexivity| |].
      + intros r I. rewrite K by auto. apply H. now right.
      + rewrite K by auto. exact G.
  Qed.

  (** A message with file data stays below two blocks. *)
  Theorem C24_message_size : forall block (l : list (nat * file A)) ms, 0 < block -> Forall (fun r => proper A (snd r)) l ->
    fmessages A block l = Some ms -> Forall (fun m => fpayload A m < 2 * block) ms.
  Proof.
    intros block l ms B PR E. destruct (fmessages_ok A block l B PR) as [ms' [E' [_ F]]]. congruence.
  Qed.
End S.

(** *** Examples and refutations *)
Definition idle {X} (_ : nat) (x : X) : X := x.
(** three buffers of 3, 9 and 2 items in blocks of 4 *)
Definition ex_locals : list (list nat) := [[1; 2; 3]; [4; 5; 6; 7; 8; 9; 10; 11; 12]; [13; 14]].
Definition ex_refs := [(7, 100); (7, 101); (7, 102)].
Definition ex_store : store nat := [(102, [0; 0]); (100, [0; 0; 0]); (101, [0; 0; 0; 0; 0; 0; 0; 0; 0]); (5, [9])].
Example ex_ready : acceptable ex_locals ex_refs (Some 4) /\ ready nat ex_locals ex_refs idle ex_store.
Proof.
  split; [|split; [|split]].
  - repeat split; try discriminate. intros r1 r2 I1 I2. simpl in *.
    repeat (destruct I1 as [<-|I1]); try contradiction; repeat (destruct I2 as [<-|I2]); try contradiction; reflexivity.
  - repeat constructor; simpl; intuition discriminate.
  - intros i a u b R L. destruct i as [|[|[|[|i]]]]; simpl in R, L; try discriminate; inversion R; inversion L; subst;
      eexists; split; reflexivity.
  - reflexivity.
Qed.
Example ex_messages : messages nat 4 (combine (map snd ex_refs) ex_locals) = Some
  [ [ {| p_uid := 100; p_start := 0; p_len := 3; p_data := [1; 2; 3] |};
      {| p_uid := 101; p_start := 0; p_len := 1; p_data := [4] |} ];
    [ {| p_uid := 101; p_start := 1; p_len := 4; p_data := [5; 6; 7; 8] |} ];
    [ {| p_uid := 101; p_start := 5; p_len := 4; p_data := [9; 10; 11; 12] |};
      {| p_uid := 102; p_start := 0; p_len := 0; p_data := [] |} ];
    [ {| p_uid := 102; p_start := 0; p_len := 2; p_data := [13; 14] |} ] ].
Proof. reflexivity. Qed.
Example ex_copied : copy_buffers nat 4 ex_locals ex_refs None idle ex_store = inl
  [(102, [13; 14]); (100, [1; 2; 3]); (101, [4; 5; 6; 7; 8; 9; 10; 11; 12]); (5, [9])].
Proof. reflexivity. Qed.
(** blocks of 5: prefix sums 0, 3, 12 *)
Example ex_tight : forall k, k < 3 -> total nat (firstn k (combine (map snd ex_refs) ex_locals)) = 0 \/
  total nat (firstn k (combine (map snd ex_refs) ex_locals)) mod 5 <> 0.
Proof. intros k K. destruct k as [|[|[|k]]]; [left; reflexivity|right; discriminate|right; discriminate|lia]. Qed.
(** 14 items in one message of block size 10 *)
Example ex_over : exists m, messages nat 10 [(1, repeat 0 5); (2, repeat 0 5); (3, repeat 0 4)] = Some [m] /\ payload nat m = 14.
Proof. eexists. split; reflexivity. Qed.

Definition ex_files : list (file nat) := [[[1; 2; 3]; [4]]; [[5; 6]]].
Example ex_files_ready : acceptable ex_files [(7, 1); (7, 2)] (Some 2) /\ Forall (proper nat) ex_files /\
  files_ready nat [(7, 1); (7, 2)] idle [(1, []); (2, [[0]])].
Proof.
  split; [|split; [|split]].
  - repeat split; try discriminate. intros r1 r2 I1 I2. simpl in *.
    repeat (destruct I1 as [<-|I1]); try contradiction; repeat (destruct I2 as [<-|I2]); try contradiction; reflexivity.
  - repeat constructor; discriminate.
  - intros u [<-|[<-|[]]]; discriminate.
  - reflexivity.
Qed.
Example ex_files_out : copy_files nat 10 ex_files [(7, 1); (7, 2)] (Some 2) idle [(1, []); (2, [[0]])] =
  inl [(1, [[1; 2]; [3]; [4]]); (2, [[0]; [5; 6]])].
Proof. reflexivity. Qed.

(** The remote buffer is gone: the reply is an error, copy_to returns normally. *)
Theorem C22_silent_failure_refuted : forall d, 0 < d -> ~ C22_claim nat d.
Proof.
  intros d D CL. specialize (CL [[1]] [(7, 1)] None idle [] []).
  assert (E : copy_buffers nat d [[1]] [(7, 1)] None idle [] = inl []).
  { unfold copy_buffers. simpl check. cbn [effective]. destruct d as [|[|d]]; [lia|reflexivity|reflexivity]. }
  specialize (CL E 0 7 1 [1] eq_refl eq_refl). discriminate.
Qed.
(** The remote file is closed after the first message (its ref is gone): the rest is
    lost, copy_to returns normally. *)
Definition close_after (n : nat) (st : fstore nat) : fstore nat := if n =? 1 then [] else st.
Theorem C24_silent_failure_refuted : ~ C24_claim nat 5.
Proof.
  intros CL. specialize (CL [[[1; 2]]] [(7, 1)] (Some 1) close_after [(1, [])] []).
  destruct (CL ltac:(repeat constructor; discriminate) eq_refl 0 7 1 [[1; 2]] [] eq_refl eq_refl
    ltac:(repeat constructor; simpl; tauto) eq_refl) as [new [N1 N2]]. discriminate.
Qed.

Print Assumptions C22_copied_partial.
Print Assumptions C22_nothing_else.
Print Assumptions C22_checked.
Print Assumptions C22_silent_failure_refuted.
Print Assumptions C23_block_size_partial.
Print Assumptions C23_pieces_partial.
Print Assumptions C23_unbounded_refuted.
Print Assumptions C23_block_size_refuted.
Print Assumptions C24_files_partial.
Print Assumptions C24_each_file_partial.
Print Assumptions C24_message_size.
Print Assumptions C24_silent_failure_refuted.
Print Assumptions C24_unknown_file_reported.
