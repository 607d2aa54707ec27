(** Lemmas about copy_to. *)
From Coq Require Import List Arith Bool Lia.
From Verif Require Import Base Dict CopyModel.
Import ListNotations.

Section P.
  Variable A : Type.
  Notation buf := (buf A).
  Notation store := (store A).
  Notation piece := (piece A).
  Notation message := (message A).
  Notation snd_st := (snd_st A).
  Notation chop := (chop A).
  Notation put := (put A).
  Notation put_all := (put_all A).
  Notation messages := (messages A).

  Lemma gg : forall V (d : list (nat * V)) k k' v, gget Nat.eqb (gset Nat.eqb d k v) k' = if k =? k' then Some v else gget Nat.eqb d k'.
  Proof. intros. apply (gget_gset _ Nat.eqb_spec). Qed.

  Definition payload (m : message) : nat := list_sum (map (fun p => length (p_data p)) m).
  Lemma payload_app : forall m n, payload (m ++ n) = payload m + payload n.
  Proof. intros. unfold payload. now rewrite map_app, list_sum_app. Qed.

  (** Pieces that together write [b] from position [start] on. *)
  Inductive covers (uid : nat) : nat -> list piece -> buf -> Prop :=
  | cov_nil : forall start, covers uid start [] []
  | cov_cons : forall start d ps rest, covers uid (start + length d) ps rest ->
      covers uid start ({| p_uid := uid; p_start := start; p_len := length d; p_data := d |} :: ps) (d ++ rest).

  Lemma covers_app : forall uid start ps b, covers uid start ps b -> forall qs c,
    covers uid (start + length b) qs c -> covers uid start (ps ++ qs) (b ++ c).
  Proof.
    induction 1 as [start|start d ps rest H IH]; simpl; intros qs c Q; [now rewrite Nat.add_0_r in Q|].
    rewrite <- app_assoc. constructor. apply IH. rewrite app_length in Q. now rewrite <- Nat.add_assoc.
  Qed.
  Lemma covers_one : forall uid start d, covers uid start [{| p_uid := uid; p_start := start; p_len := length d; p_data := d |}] d.
  Proof. intros. rewrite <- (app_nil_r d) at 3. constructor. constructor. Qed.

  Definition flat (s : snd_st) : list piece := concat (sent s) ++ data s.

  (** The loop over one large buffer. *)
  Lemma chop_ok : forall block uid, 0 < block -> forall fuel start s b,
    cur s <= block -> length b + (if cur s =? block then 1 else 0) <= fuel ->
    exists s1 st1 rest ps, chop fuel block uid start s b = Some (s1, st1, rest) /\
      flat s1 = flat s ++ ps /\
      (exists pre, b = pre ++ rest /\ covers uid start ps pre /\ st1 = start + length pre) /\
      cur s1 + length rest <= block /\ cur s1 <= block /\
      ((s1 = s /\ rest = b) \/ (cur s1 = 0 /\ data s1 = [] /\ 0 < length rest)) /\
      exists new, sent s1 = sent s ++ new /\
        (payload (data s) = cur s -> Forall (fun m => payload m = block) new) /\
        (cur s + length b) mod block = (cur s1 + length rest) mod block.
  Proof.
    intros block uid B. induction fuel as [|f IH]; intros start s b CL FU.
    - assert (length b = 0) by lia. destruct b; [|discriminate]. simpl. rewrite Nat.add_0_r.
      assert (L : (block <? cur s) = false) by (apply Nat.ltb_ge; lia). rewrite L.
      exists s, start, [], []. rewrite app_nil_r. repeat split; auto; try (simpl; lia).
      + exists []. simpl. rewrite Nat.add_0_r. repeat split; auto. constructor.
      + exists []. rewrite app_nil_r. repeat split; auto.
    - cbn [CopyModel.chop]. destruct (Nat.ltb_spec block (cur s + length b)) as [G|G].
      + set (remain := block - cur s).
        set (p := {| p_uid := uid; p_start := start; p_len := remain; p_data := firstn remain b |}).
        set (s' := {| cur := 0; data := []; sent := sent s ++ [data s ++ [p]] |}).
        assert (LR : length (firstn remain b) = remain) by (rewrite firstn_length; unfold remain; lia).
        assert (LS : length (skipn remain b) = length b - remain) by apply skipn_length.
        destruct (IH (start + remain) s' (skipn remain b)) as [s1 [st1 [rest [ps [E [FL [[pre [E1 [CV E2]]] [C1 [C2 [C3 [new [N1 [N2 N3]]]]]]]]]]]]].
        { simpl. lia. }
        { unfold s'. cbn [cur]. assert (Q : (0 =? block) = false) by (apply Nat.eqb_neq; lia). rewrite Q.
          rewrite LS. unfold remain. destruct (Nat.eqb_spec (cur s) block); lia. }
        exists s1, st1, rest, (p :: ps). split; [exact E|]. split.
        { rewrite FL. unfold flat, s'. simpl. rewrite concat_app. simpl. rewrite !app_nil_r, <- !app_assoc. reflexivity. }
        split.
        { exists (firstn remain b ++ pre). rewrite <- app_assoc, <- E1, firstn_skipn. split; auto. split.
          - unfold p. pose proof (cov_cons uid start (firstn remain b) ps pre) as K. rewrite LR in K. now apply K.
          - rewrite E2, app_length, LR. lia. }
        split; auto. split; auto. split.
        { right. destruct C3 as [[-> Q]|[Q1 [Q2 Q3]]]; [|auto]. subst s'. simpl. repeat split; auto.
          rewrite Q, LS. unfold remain. lia. }
        exists ([data s ++ [p]] ++ new). split; [rewrite N1; unfold s'; simpl; now rewrite <- app_assoc|]. split.
        { intros PC. simpl. constructor; [|apply N2; reflexivity]. rewrite payload_app, PC. unfold payload. simpl.
          rewrite LR. unfold remain. lia. }
        { rewrite <- N3. simpl. rewrite LS. replace (cur s + length b) with (length b - remain + 1 * block) by (unfold remain in *; lia).
          now rewrite Nat.mod_add by lia. }
      + exists s, start, b, []. rewrite app_nil_r. repeat split; auto.
        * exists []. simpl. rewrite Nat.add_0_r. repeat split; auto. constructor.
        * exists []. rewrite app_nil_r. repeat split; auto.
  Qed.

  Lemma put_ok : forall block uid b s, 0 < block -> cur s <= block ->
    exists s' ps, put block s (uid, b) = Some s' /\ cur s' <= block /\ flat s' = flat s ++ ps /\ covers uid 0 ps b /\
      exists new, sent s' = sent s ++ new /\
      (payload (data s) = cur s ->
         Forall (fun m => payload m = block) new /\ payload (data s') <= block /\
         ((cur s + length b) mod block <> 0 -> cur s < block ->
            payload (data s') = cur s' /\ cur s' = (cur s + length b) mod block)).
  Proof.
    intros block uid b s B CL. unfold CopyModel.put.
    destruct (Nat.ltb_spec (cur s + length b) block) as [G|G].
    - eexists. exists [{| p_uid := uid; p_start := 0; p_len := length b; p_data := b |}]. split; [reflexivity|].
      simpl. split; [lia|]. split; [unfold flat; simpl; now rewrite app_assoc|]. split; [apply covers_one|].
      exists []. rewrite app_nil_r. split; auto. intros PC. rewrite payload_app, PC. unfold payload. simpl.
      split; [constructor|]. split; [lia|]. intros _ _. rewrite Nat.mod_small by lia. lia.
    - destruct (chop_ok block uid B (S (length b)) 0 s b CL) as [s1 [st1 [rest [ps [E [FL [[pre [E1 [CV E2]]] [C1 [C2 [C3 [new [N1 [N2 N3]]]]]]]]]]]]].
      { destruct (cur s =? block); lia. }
      rewrite E. destruct (Nat.ltb_spec 0 (length rest)) as [R|R].
      + eexists. exists (ps ++ [{| p_uid := uid; p_start := st1; p_len := length rest; p_data := rest |}]).
        split; [reflexivity|]. simpl. split; [lia|]. split.
        { unfold flat in *. simpl. rewrite app_assoc, FL, <- app_assoc. reflexivity. }
        split.
        { rewrite E1. apply covers_app; auto. rewrite <- E2. apply covers_one. }
        exists new. split; auto. intros PC. split; [auto|].
        rewrite payload_app. assert (PD : payload (data s1) = cur s1).
        { destruct C3 as [[-> _]|[Q1 [Q2 _]]]; auto. now rewrite Q1, Q2. }
        rewrite PD. unfold payload. simpl. split; [lia|]. intros NM LT.
        rewrite N3 in NM |- *.
        assert (cur s1 + length rest <> block).
        { intros Q. apply NM. rewrite Q. apply Nat.mod_same. lia. }
        assert (cur s1 = 0). { destruct C3 as [[-> ->]|[Q1 _]]; auto. lia. }
        rewrite Nat.mod_small by lia. lia.
      + assert (rest = []) by (destruct rest; simpl in R; [auto|lia]). subst rest.
        exists s1, ps. split; auto. split; [lia|]. split; auto. split; [rewrite E1, app_nil_r; auto|].
        exists new. split; auto. intros PC. split; [auto|].
        destruct C3 as [[-> Q]|[_ [_ Q]]]; [|simpl in Q; lia].
        split; [lia|]. intros NM LT. rewrite <- Q in G. simpl in G. exfalso. lia.
  Qed.

  Lemma cur_le : forall block l s s', 0 < block -> cur s <= block -> put_all block s l = Some s' -> cur s' <= block.
  Proof.
    intros block. induction l as [|[uid b] l IH]; intros s s' B CL E; cbn [CopyModel.put_all] in E; [congruence|].
    destruct (put_ok block uid b s B CL) as [s1 [ps [P1 [P2 _]]]]. rewrite P1 in E. eapply IH; eauto.
  Qed.

  (** The pieces of all buffers. *)
  Inductive all_covers : list (nat * buf) -> list piece -> Prop :=
  | ac_nil : all_covers [] []
  | ac_cons : forall uid b l ps qs, covers uid 0 ps b -> all_covers l qs -> all_covers ((uid, b) :: l) (ps ++ qs).

  Lemma put_all_ok : forall block, 0 < block -> forall l s, cur s <= block ->
    exists s' ps, put_all block s l = Some s' /\ flat s' = flat s ++ ps /\ all_covers l ps.
  Proof.
    intros block B. induction l as [|[uid b] l IH]; intros s CL; cbn [CopyModel.put_all].
    - exists s, []. rewrite app_nil_r. repeat split; auto. constructor.
    - destruct (put_ok block uid b s B CL) as [s1 [ps [P1 [P2 [P3 [P4 _]]]]]]. rewrite P1.
      destruct (IH s1 P2) as [s' [qs [Q1 [Q2 Q3]]]]. exists s', (ps ++ qs). split; auto. split.
      + rewrite Q2, P3, app_assoc. reflexivity.
      + now constructor.
  Qed.

  Lemma messages_ok : forall block l, 0 < block -> exists ms, messages block l = Some ms /\ all_covers l (concat ms).
  Proof.
    intros block l B. unfold CopyModel.messages.
    destruct (put_all_ok block B l {| cur := 0; data := []; sent := [] |}) as [s' [ps [E [F C]]]]; [simpl; lia|].
    rewrite E. eexists. split; [reflexivity|]. unfold flat in F. simpl in F. subst ps.
    destruct (data s') as [|p d]; [now rewrite app_nil_r in C|]. rewrite concat_app. simpl. now rewrite app_nil_r.
  Qed.

  (** *** Block sizes *)
  Definition total (l : list (nat * buf)) : nat := list_sum (map (fun r => length (snd r)) l).

  Lemma blocks_ok : forall block, 0 < block -> forall l s P,
    cur s < block -> payload (data s) = cur s -> P mod block = cur s ->
    (forall k, 0 < k < length l -> P + total (firstn k l) = 0 \/ (P + total (firstn k l)) mod block <> 0) ->
    Forall (fun m => payload m <= block) (sent s) ->
    exists s', put_all block s l = Some s' /\ Forall (fun m => payload m <= block) (sent s') /\ payload (data s') <= block.
  Proof.
    intros block B. induction l as [|[uid b] l IH]; intros s P CL PC PM TI FA; cbn [CopyModel.put_all].
    - exists s. repeat split; auto. lia.
    - destruct (put_ok block uid b s B) as [s1 [ps [P1 [P2 [P3 [P4 [new [N1 N2]]]]]]]]; [lia|].
      destruct (N2 PC) as [Q1 [Q2 Q3]]. rewrite P1.
      assert (FA1 : Forall (fun m => payload m <= block) (sent s1)).
      { rewrite N1. apply Forall_app. split; auto. eapply Forall_impl; [|exact Q1]. simpl. intros; lia. }
      destruct l as [|r l].
      + simpl. exists s1. auto.
      + assert (PE : (P + length b) mod block = (cur s + length b) mod block).
        { rewrite <- PM. rewrite Nat.add_mod_idemp_l; lia. }
        assert (T1 : total (firstn 1 ((uid, b) :: r :: l)) = length b) by (unfold total; simpl; lia).
        assert (Z : P + length b = 0 \/ (P + length b) mod block <> 0).
        { rewrite <- T1. apply TI. simpl. lia. }
        assert (S1 : payload (data s1) = cur s1 /\ cur s1 = (P + length b) mod block).
        { destruct Z as [Z|Z].
          - assert (b = []) by (destruct b; [auto|simpl in Z; lia]). subst b. assert (P = 0) by (simpl in Z; lia). subst P.
            assert (C0 : cur s = 0) by (rewrite <- PM; apply Nat.mod_0_l; lia).
            cbn [CopyModel.put] in P1. rewrite C0 in P1. simpl in P1.
            assert (Q : (0 <? block) = true) by (apply Nat.ltb_lt; lia). rewrite Q in P1. inversion P1; subst s1. simpl.
            rewrite payload_app, PC, C0. unfold payload. simpl. rewrite Nat.mod_0_l by lia. auto.
          - rewrite PE. apply Q3; [|auto]. now rewrite <- PE. }
        destruct S1 as [S1 S2].
        apply (IH s1 (P + length b)); auto.
        * rewrite S2. apply Nat.mod_upper_bound. lia.
        * intros k K. specialize (TI (S k)). cbn [firstn] in TI.
          assert (TE : total ((uid, b) :: firstn k (r :: l)) = length b + total (firstn k (r :: l))) by reflexivity.
          rewrite TE in TI. rewrite <- !Nat.add_assoc. apply TI. simpl in *. lia.
  Qed.

  (** *** Receiving *)
  Definition agree (U : list nat) (a b : store) : Prop := forall u, In u U -> gget Nat.eqb a u = gget Nat.eqb b u.

  Lemma write_agree : forall U a b p, agree U a b -> In (p_uid p) U ->
    match write A a p, write A b p with
    | inl a', inl b' => agree U a' b'
    | inr e, inr e' => e = e'
    | _, _ => False
    end.
  Proof.
    intros U a b p AG I. unfold write. rewrite <- (AG _ I).
    destruct (gget Nat.eqb a (p_uid p)) as [x|]; auto.
    destruct (_ =? length (p_data p)); auto. intros u Iu. rewrite !gg. destruct (p_uid p =? u); auto.
  Qed.
  Lemma handle_agree : forall U m a b, agree U a b -> (forall p, In p m -> In (p_uid p) U) ->
    agree U (fst (handle A a m)) (fst (handle A b m)) /\ snd (handle A a m) = snd (handle A b m).
  Proof.
    intros U. induction m as [|p m IH]; simpl; intros a b AG I; auto.
    pose proof (write_agree U a b p AG (I p (or_introl eq_refl))) as W.
    destruct (write A a p), (write A b p); try contradiction; [|subst; auto]. apply IH; auto.
  Qed.
  Lemma handle_app : forall m n a, snd (handle A a m) = None -> handle A a (m ++ n) = handle A (fst (handle A a m)) n.
  Proof.
    induction m as [|p m IH]; simpl; intros n a E; auto. destruct (write A a p); [auto|discriminate].
  Qed.
  Lemma handle_app_none : forall m n a, snd (handle A a (m ++ n)) = None -> snd (handle A a m) = None.
  Proof.
    induction m as [|p m IH]; simpl; intros n a E; auto. destruct (write A a p); [eauto|discriminate].
  Qed.

  Lemma deliver_ok : forall U env, (forall n st, agree U st (env n st)) ->
    forall ms n st, (forall p, In p (concat ms) -> In (p_uid p) U) ->
    snd (handle A st (concat ms)) = None ->
    agree U (fst (handle A st (concat ms))) (deliver A env n st ms).
  Proof.
    intros U env EN. induction ms as [|m ms IH]; simpl; intros n st I E; auto.
    assert (I1 : forall p, In p m -> In (p_uid p) U) by (intros; apply I, in_or_app; auto).
    assert (I2 : forall p, In p (concat ms) -> In (p_uid p) U) by (intros; apply I, in_or_app; auto).
    pose proof (handle_app_none _ _ _ E) as E1. rewrite handle_app in E |- * by auto.
    destruct (handle_agree U m st (env n st) (EN n st) I1) as [G1 G2].
    destruct (handle_agree U (concat ms) _ _ G1 I2) as [H1 H2].
    intros u Iu. rewrite (H1 u Iu). apply (IH (S n)); auto. congruence.
  Qed.

  (** Writing the pieces of one buffer. *)
  Lemma covers_write : forall uid start ps b, covers uid start ps b -> forall st pre old,
    gget Nat.eqb st uid = Some (pre ++ old) -> length pre = start -> length old = length b ->
    exists st', handle A st ps = (st', None) /\ gget Nat.eqb st' uid = Some (pre ++ b) /\
      forall u, u <> uid -> gget Nat.eqb st' u = gget Nat.eqb st u.
  Proof.
    induction 1 as [start|start d ps rest H IH]; intros st pre old G LP LO.
    - destruct old; [|discriminate]. exists st. auto.
    - cbn [handle]. unfold write. cbn [p_uid p_start p_len p_data].
      unfold CopyModel.store, CopyModel.buf in *. rewrite G. rewrite app_length.
      rewrite app_length in LO.
      rewrite (Nat.min_l start) by lia. rewrite (Nat.min_l (start + length d)) by lia.
      replace (start + length d - start) with (length d) by lia. rewrite Nat.eqb_refl.
      set (st1 := gset Nat.eqb st uid _).
      assert (F1 : firstn start (pre ++ old) = pre).
      { rewrite firstn_app, LP, Nat.sub_diag, firstn_O, app_nil_r. apply firstn_all2. lia. }
      assert (F2 : skipn (start + length d) (pre ++ old) = skipn (length d) old).
      { rewrite skipn_app, skipn_all2 by lia. simpl. f_equal. lia. }
      destruct (IH st1 (pre ++ d) (skipn (length d) old)) as [st' [S1 [S2 S3]]].
      + unfold st1. rewrite gg, Nat.eqb_refl, F1, F2, <- app_assoc. reflexivity.
      + rewrite app_length. lia.
      + rewrite skipn_length. lia.
      + exists st'. split; auto. split; [now rewrite app_assoc|]. intros u N. rewrite S3 by auto.
        unfold st1. rewrite gg. destruct (Nat.eqb_spec uid u); congruence.
  Qed.
  Lemma covers_uid : forall uid start ps b, covers uid start ps b -> forall p, In p ps -> p_uid p = uid.
  Proof. induction 1; simpl; intros p; [intros []|intros [<-|I]; auto]. Qed.
  Lemma all_covers_uid : forall l ps, all_covers l ps -> forall p, In p ps -> In (p_uid p) (map fst l).
  Proof.
    induction 1 as [|uid b l ps qs C AC IH]; simpl; intros p I; [contradiction|].
    apply in_app_or in I. destruct I as [I|I]; auto. left. symmetry. eapply covers_uid; eauto.
  Qed.

  Lemma all_write : forall l ps, all_covers l ps -> NoDup (map fst l) -> forall st,
    (forall u b, In (u, b) l -> exists old, gget Nat.eqb st u = Some old /\ length old = length b) ->
    snd (handle A st ps) = None /\
    (forall u b, In (u, b) l -> gget Nat.eqb (fst (handle A st ps)) u = Some b) /\
    (forall u, ~ In u (map fst l) -> gget Nat.eqb (fst (handle A st ps)) u = gget Nat.eqb st u).
  Proof.
    induction 1 as [|uid b l ps qs C AC IH]; intros ND st R; simpl in *.
    - repeat split; auto. intros; contradiction.
    - apply NoDup_cons_iff in ND. destruct ND as [H2 H3]. destruct (R uid b (or_introl eq_refl)) as [old [G L]].
      destruct (covers_write uid 0 ps b C st [] old G eq_refl L) as [st1 [H1 [G1 O1]]].
      rewrite handle_app by (rewrite H1; reflexivity). rewrite H1. cbn [fst].
      destruct (IH H3 st1) as [I1 [I2 I3]].
      { intros u c I. rewrite O1; [apply R; auto|]. intros ->. apply H2. change uid with (fst (uid, c)). now apply in_map. }
      split; auto. split.
      + intros u c [Q|Q]; [|auto]. inversion Q; subst. rewrite I3 by auto. exact G1.
      + intros u N. rewrite I3 by tauto. apply O1. intros ->. tauto.
  Qed.

  (** *** Files *)
  Notation file := (file A).
  Notation fsnd := (fsnd A).
  Notation fpiece := (fpiece A).
  Definition fflat (s : fsnd) : list fpiece := concat (fsent s) ++ fdata s.
  Definition fpayload (m : list fpiece) : nat := list_sum (map (fun p => length (f_data p)) m).
  Definition proper (f : file) : Prop := Forall (fun seg => seg <> []) f.

  Record fgood (block : nat) (s : fsnd) : Prop := {
    g_cur : fcur s < block;
    g_pay : fpayload (fdata s) = fcur s;
    g_sent : Forall (fun m => fpayload m < 2 * block) (fsent s)
  }.
  Definition fok (block uid : nat) (p : fpiece) : Prop := f_uid p = uid /\ 0 < length (f_data p) <= block.

  Lemma fput_ok : forall block s p, fgood block s -> 0 < length (f_data p) <= block ->
    fgood block (fput A block s p) /\ fflat (fput A block s p) = fflat s ++ [p].
  Proof.
    intros block s p [G1 G2 G3] L. unfold fput. destruct (Nat.leb_spec block (fcur s + length (f_data p))) as [H|H].
    - split.
      + constructor; simpl; [lia|reflexivity|]. apply Forall_app. split; auto. constructor; auto.
        unfold fpayload in *. rewrite map_app, list_sum_app, G2. simpl. lia.
      + unfold fflat. simpl. rewrite concat_app. simpl. now rewrite !app_nil_r, app_assoc.
    - split.
      + constructor; simpl; [lia| |auto]. unfold fpayload in *. rewrite map_app, list_sum_app, G2. simpl. lia.
      + unfold fflat. simpl. now rewrite app_assoc.
  Qed.

  Lemma fread_ok : forall block uid, 0 < block -> forall fuel s f, fgood block s -> proper f ->
    length f + length (content A f) < fuel ->
    exists s' ps, fread A fuel block uid s f = Some s' /\ fgood block s' /\ fflat s' = fflat s ++ ps /\
      concat (map f_data ps) = content A f /\ Forall (fok block uid) ps.
  Proof.
    intros block uid B. induction fuel as [|n IH]; intros s f G PR L; [lia|]. cbn [fread].
    destruct f as [|seg f].
    - exists s, []. rewrite app_nil_r. split; [reflexivity|]. split; [exact G|]. split; [reflexivity|]. split; [reflexivity|constructor].
    - apply Forall_cons_iff in PR. destruct PR as [NE PR].
      destruct (firstn block seg) as [|x d] eqn:FD.
      { exfalso. destruct seg; [congruence|]. destruct block; [lia|]. discriminate. }
      set (p := {| f_uid := uid; f_data := x :: d |}).
      assert (LD : 0 < length (f_data p) <= block).
      { change (f_data p) with (x :: d). split; [simpl; lia|]. rewrite <- FD, firstn_length. lia. }
      destruct (fput_ok block s p G LD) as [G1 F1].
      set (f' := match skipn block seg with [] => f | r => r :: f end).
      assert (C1 : content A (seg :: f) = (x :: d) ++ content A f').
      { unfold content. simpl. rewrite <- (firstn_skipn block seg) at 1. rewrite FD, <- app_assoc. f_equal.
        unfold f'. destruct (skipn block seg); reflexivity. }
      assert (PR' : proper f').
      { unfold f'. destruct (skipn block seg) eqn:SK; auto. constructor; auto. discriminate. }
      assert (LF : length f' <= S (length f)) by (unfold f'; destruct (skipn block seg); simpl; lia).
      destruct (IH (fput A block s p) f' G1 PR') as [s' [ps [E [G2 [F2 [C2 K2]]]]]].
      { rewrite C1, app_length in L. simpl in L. lia. }
      exists s', (p :: ps). split; auto. split; auto. split.
      + rewrite F2, F1, <- app_assoc. reflexivity.
      + split; [simpl; rewrite C2; symmetry; exact C1|]. constructor; auto. split; auto.
  Qed.

  Inductive all_files (block : nat) : list (nat * file) -> list fpiece -> Prop :=
  | af_nil : all_files block [] []
  | af_cons : forall uid f l ps qs, concat (map f_data ps) = content A f -> Forall (fok block uid) ps ->
      all_files block l qs -> all_files block ((uid, f) :: l) (ps ++ qs).

  Lemma fput_all_ok : forall block, 0 < block -> forall l s, fgood block s -> Forall (fun r => proper (snd r)) l ->
    exists s' ps, fput_all A block s l = Some s' /\ fgood block s' /\ fflat s' = fflat s ++ ps /\ all_files block l ps.
  Proof.
    intros block B. induction l as [|[uid f] l IH]; intros s G PR; cbn [fput_all].
    - exists s, []. rewrite app_nil_r. split; [reflexivity|]. split; [exact G|]. split; [reflexivity|constructor].
    - apply Forall_cons_iff in PR. destruct PR as [P1 PR].
      destruct (fread_ok block uid B (file_fuel A f) s f G P1) as [s1 [ps [E [G1 [F1 [C1 K1]]]]]].
      { unfold file_fuel. lia. }
      rewrite E. destruct (IH s1 G1 PR) as [s' [qs [E2 [G2 [F2 A2]]]]].
      exists s', (ps ++ qs). split; auto. split; auto. split; [rewrite F2, F1, app_assoc; reflexivity|].
      now constructor.
  Qed.

  Lemma fmessages_ok : forall block l, 0 < block -> Forall (fun r => proper (snd r)) l ->
    exists ms, fmessages A block l = Some ms /\ all_files block l (concat ms) /\ Forall (fun m => fpayload m < 2 * block) ms.
  Proof.
    intros block l B PR. unfold fmessages.
    destruct (fput_all_ok block B l {| fcur := 0; fdata := []; fsent := [] |}) as [s' [ps [E [[G1 G2 G3] [F A1]]]]].
    { constructor; simpl; auto. }
    { exact PR. }
    rewrite E. eexists. split; [reflexivity|]. unfold fflat in F. simpl in F. subst ps.
    destruct (Nat.ltb_spec 0 (fcur s')).
    - split; [rewrite concat_app; simpl; now rewrite app_nil_r|]. apply Forall_app. split; auto. constructor; auto. lia.
    - assert (D : fdata s' = [] \/ fdata s' <> []) by (destruct (fdata s'); [left; auto|right; discriminate]).
      destruct D as [D|D]; [rewrite D, app_nil_r in A1; auto|]. exfalso.
      destruct (fdata s') as [|p d] eqn:FD; [congruence|].
      assert (I : In p (concat (fsent s') ++ p :: d)) by (apply in_or_app; right; now left).
      assert (K : forall l ps, all_files block l ps -> forall q, In q ps -> 0 < length (f_data q)).
      { clear. induction 1 as [|uid f l ps qs C1 K1 A1 IH]; intros q I; [contradiction|].
        apply in_app_or in I. destruct I as [I|I]; auto. rewrite Forall_forall in K1. apply K1 in I. apply I. }
      specialize (K _ _ A1 p I). unfold fpayload in G2. simpl in G2. lia.
  Qed.

  Definition fagree (U : list nat) (a b : fstore A) : Prop := forall u, In u U -> gget Nat.eqb a u = gget Nat.eqb b u.
  (** The data for file [u]. *)
  Definition for_uid (u : nat) (ps : list fpiece) : list buf := map f_data (filter (fun p => f_uid p =? u) ps).
  Lemma for_uid_app : forall u a b, for_uid u (a ++ b) = for_uid u a ++ for_uid u b.
  Proof.
    intros u a b. unfold for_uid.
    assert (F : forall x, filter (fun p => f_uid p =? u) (x ++ b) = filter (fun p => f_uid p =? u) x ++ filter (fun p : fpiece => f_uid p =? u) b).
    { induction x as [|p x IH]; simpl; auto. destruct (f_uid p =? u); simpl; now rewrite IH. }
    now rewrite F, map_app.
  Qed.

  Lemma fhandle_ok : forall U m st, (forall p, In p m -> In (f_uid p) U) ->
    (forall u, In u U -> gget Nat.eqb st u <> None) ->
    snd (fhandle A st m) = None /\
    forall u ws, In u U -> gget Nat.eqb st u = Some ws -> gget Nat.eqb (fst (fhandle A st m)) u = Some (ws ++ for_uid u m).
  Proof.
    intros U. induction m as [|p m IH]; intros st I P; cbn [fhandle].
    - split; auto. intros u ws _ G. unfold for_uid. simpl. rewrite app_nil_r. exact G.
    - assert (IU : In (f_uid p) U) by (apply I; now left).
      destruct (gget Nat.eqb st (f_uid p)) as [w0|] eqn:G0; [|exfalso; exact (P _ IU G0)].
      set (st1 := gset Nat.eqb st (f_uid p) (w0 ++ [f_data p])).
      destruct (IH st1) as [H1 H2].
      { intros q Q. apply I. now right. }
      { intros u Iu. unfold st1. rewrite gg. destruct (f_uid p =? u); [discriminate|auto]. }
      split; auto. intros u ws Iu G. unfold for_uid. cbn [filter].
      destruct (Nat.eqb_spec (f_uid p) u) as [E|N].
      + subst u. assert (ws = w0) by congruence. subst w0. rewrite (H2 (f_uid p) (ws ++ [f_data p])); auto.
        * rewrite <- app_assoc. reflexivity.
        * unfold st1. now rewrite gg, Nat.eqb_refl.
      + apply H2; auto. unfold st1. rewrite gg. destruct (Nat.eqb_spec (f_uid p) u); [congruence|auto].
  Qed.

  Lemma fdeliver_ok : forall U env, (forall n st, fagree U st (env n st)) ->
    forall ms n st, (forall p, In p (concat ms) -> In (f_uid p) U) ->
    (forall u, In u U -> gget Nat.eqb st u <> None) ->
    forall u ws, In u U -> gget Nat.eqb st u = Some ws ->
    gget Nat.eqb (fdeliver A env n st ms) u = Some (ws ++ for_uid u (concat ms)).
  Proof.
    intros U env EN. induction ms as [|m ms IH]; intros n st I P u ws Iu G; cbn [fdeliver concat].
    - unfold for_uid. simpl. rewrite app_nil_r. now rewrite <- (EN n st u Iu).
    - assert (I1 : forall p, In p m -> In (f_uid p) U) by (intros p Q; apply I; simpl; apply in_or_app; auto).
      assert (I2 : forall p, In p (concat ms) -> In (f_uid p) U) by (intros p Q; apply I; simpl; apply in_or_app; auto).
      assert (P1 : forall u, In u U -> gget Nat.eqb (env n st) u <> None) by (intros x X; rewrite <- (EN n st x X); auto).
      destruct (fhandle_ok U m (env n st) I1 P1) as [H1 H2].
      rewrite for_uid_app, app_assoc. apply IH; auto.
      + intros x X. destruct (gget Nat.eqb (env n st) x) as [y|] eqn:Y; [|exfalso; exact (P1 x X Y)].
        rewrite (H2 x y X Y). discriminate.
      + apply H2; auto. now rewrite <- (EN n st u Iu).
  Qed.

  Lemma all_files_uid : forall block l ps, all_files block l ps -> forall p, In p ps -> In (f_uid p) (map fst l).
  Proof.
    induction 1 as [|uid f l ps qs C1 K1 A1 IH]; simpl; intros p I; [contradiction|].
    apply in_app_or in I. destruct I as [I|I]; auto. rewrite Forall_forall in K1. left. symmetry. now apply K1.
  Qed.
  Lemma all_files_for : forall block l ps, all_files block l ps -> forall u,
    concat (for_uid u ps) = concat (map (fun r => content A (snd r)) (filter (fun r => fst r =? u) l)) /\
    Forall (fun d => length d <= block) (for_uid u ps).
  Proof.
    induction 1 as [|uid f l ps qs C1 K1 A1 IH]; intros u.
    - split; [reflexivity|constructor].
    - rewrite for_uid_app, concat_app. destruct (IH u) as [I1 I2]. cbn [filter fst].
      assert (S : for_uid u ps = if uid =? u then map f_data ps else []).
      { clear C1. unfold for_uid. induction ps as [|p ps IP]; simpl; [now destruct (uid =? u)|].
        apply Forall_cons_iff in K1. destruct K1 as [[K1 _] K2]. rewrite K1. specialize (IP K2).
        destruct (uid =? u); simpl; now rewrite IP. }
      split.
      + rewrite I1, S. destruct (uid =? u); simpl; [now rewrite C1|reflexivity].
      + apply Forall_app. split; auto. rewrite S. destruct (uid =? u); [|constructor].
        apply Forall_forall. intros d I. apply in_map_iff in I. destruct I as [p [<- I]].
        rewrite Forall_forall in K1. apply K1 in I. apply I.
  Qed.
End P.
