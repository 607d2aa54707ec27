(** Proofs about the wire format model. *)
From Coq Require Import List NArith Arith Bool Lia.
From Verif Require Import Base FramingModel.
Import ListNotations.

Lemma le_bytes_length : forall k n, length (le_bytes k n) = k.
Proof. induction k; simpl; intros; auto. Qed.

Lemma le_value_bytes : forall k n,
  (n < 256 ^ N.of_nat k)%N -> le_value (le_bytes k n) = n.
Proof.
  induction k; intros n Hn.
  - simpl in *. lia.
  - cbn [le_bytes le_value]. rewrite IHk.
    + pose proof (N.div_mod n 256). lia.
    + rewrite Nat2N.inj_succ, N.pow_succ_r in Hn by lia.
      apply N.div_lt_upper_bound; lia.
Qed.

Lemma pack_length : forall k n b, pack k n = Some b -> length b = k.
Proof.
  unfold pack; intros k n b E. destruct (n <? _)%N; inversion E. apply le_bytes_length.
Qed.

Lemma pack_value : forall k n b, pack k n = Some b -> le_value b = n.
Proof.
  unfold pack; intros k n b E. destruct (N.ltb_spec n (256 ^ N.of_nat k)); inversion E.
  now apply le_value_bytes.
Qed.

Definition flat (r : reader) : bytes := r_have r ++ concat (r_coming r).

Lemma readexactly_from_ok : forall coming n have a b,
  have ++ concat coming = a ++ b -> length a = n ->
  exists r', readexactly_from n have coming = Some (a, r') /\ flat r' = b.
Proof.
  induction coming as [|c coming IH]; intros n have a b E L; simpl in *.
  - rewrite app_nil_r in E. subst have.
    rewrite app_length. destruct (Nat.leb_spec n (length a + length b)); [|lia].
    exists (Reader b []). subst n. rewrite firstn_app, Nat.sub_diag, firstn_all. simpl.
    rewrite app_nil_r, skipn_app, Nat.sub_diag, skipn_all. simpl. split; auto.
    unfold flat; simpl. apply app_nil_r.
  - destruct (Nat.leb_spec n (length have)).
    + exists (Reader (skipn n have) (c :: coming)). split.
      * f_equal. f_equal.
        assert (firstn n (have ++ c ++ concat coming) = firstn n (a ++ b)) by now rewrite E.
        rewrite !firstn_app in H0. replace (n - length have) with 0 in H0 by lia.
        replace (n - length a) with 0 in H0 by lia. simpl in H0. rewrite !app_nil_r in H0.
        rewrite H0. subst n. apply firstn_all.
      * unfold flat. simpl.
        assert (skipn n (have ++ c ++ concat coming) = skipn n (a ++ b)) by now rewrite E.
        rewrite !skipn_app in H0. replace (n - length have) with 0 in H0 by lia.
        replace (n - length a) with 0 in H0 by lia. simpl in H0. rewrite H0.
        rewrite skipn_all2 by lia. reflexivity.
    + apply IH; auto. now rewrite <- app_assoc.
Qed.

Lemma readexactly_ok : forall r n a b,
  flat r = a ++ b -> length a = n ->
  exists r', readexactly n r = Some (a, r') /\ flat r' = b.
Proof. intros [h c] n a b E L. now apply readexactly_from_ok. Qed.

Lemma readexactly_from_short : forall coming n have,
  length (have ++ concat coming) < n -> readexactly_from n have coming = None.
Proof.
  induction coming as [|c coming IH]; intros n have L; simpl in *.
  - rewrite app_nil_r in L. destruct (Nat.leb_spec n (length have)); auto; lia.
  - rewrite !app_length in L. destruct (Nat.leb_spec n (length have)); [lia|].
    apply IH. rewrite !app_length. lia.
Qed.

Lemma readexactly_short : forall r n, length (flat r) < n -> readexactly n r = None.
Proof. intros [h c] n L. now apply readexactly_from_short. Qed.

Lemma readexactly_inv : forall n r a r',
  readexactly n r = Some (a, r') -> flat r = a ++ flat r' /\ length a = n.
Proof.
  intros n r a r' E. destruct (Nat.lt_ge_cases (length (flat r)) n) as [L|L].
  - rewrite readexactly_short in E by assumption. discriminate.
  - destruct (@readexactly_ok r n (firstn n (flat r)) (skipn n (flat r))) as [r1 [E1 F1]].
    + symmetry; apply firstn_skipn.
    + apply firstn_length_le; lia.
    + rewrite E1 in E. inversion E; subst. rewrite F1, firstn_skipn.
      split; auto. apply firstn_length_le; lia.
Qed.

Section P.
  Variable H : Type.
  Variable pickle : wire_header H -> bytes.
  Variable unpickle : bytes -> option (wire_header H).
  Variable cuda_chunk : nat.
  Hypothesis pickle_ok : forall w, unpickle (pickle w) = Some w.
  Hypothesis chunk_pos : 0 < cuda_chunk.

  Notation frame := (frame pickle cuda_chunk).
  Notation recv := (recv unpickle cuda_chunk).
  Notation recv_all := (recv_all unpickle cuda_chunk).
  Notation stream := (stream pickle cuda_chunk).

  Lemma cuda_writes_concat : forall fuel data offset,
    length data - offset <= fuel -> concat (cuda_writes cuda_chunk fuel data offset) = skipn offset data.
  Proof.
    induction fuel; intros data offset L; simpl.
    - symmetry. apply skipn_all2. lia.
    - destruct (Nat.ltb_spec offset (length data)).
      + destruct (Nat.ltb_spec (offset + cuda_chunk) (length data)); cbn [concat].
        * rewrite IHfuel by lia.
          rewrite <- (firstn_skipn cuda_chunk (skipn offset data)) at 2.
          f_equal. rewrite skipn_skipn. reflexivity.
        * rewrite IHfuel by lia.
          rewrite skipn_all2 with (n := offset + _) by lia. rewrite app_nil_r.
          apply firstn_all2. rewrite skipn_length. lia.
      + simpl. symmetry. apply skipn_all2. lia.
  Qed.

  Lemma buffer_writes_concat : forall b, concat (buffer_writes cuda_chunk b) = b_data b.
  Proof.
    intros [c d]. unfold buffer_writes. simpl. destruct c.
    - rewrite cuda_writes_concat by lia. reflexivity.
    - simpl. apply app_nil_r.
  Qed.

  Lemma all_writes_concat : forall bs,
    concat (concat (map (buffer_writes cuda_chunk) bs)) = concat (map b_data bs).
  Proof.
    induction bs; simpl; auto. now rewrite concat_app, buffer_writes_concat, IHbs.
  Qed.

  Lemma frame_shape : forall c m f, frame c m = Some f ->
    exists len cmp, length len = 8 /\ length cmp = 2 /\
      let hd := pickle (map b_cuda (m_bufs m), map (fun b => length (b_data b)) (m_bufs m), m_head m) in
      le_value len = N.of_nat (length hd) /\
      f = (version :: len ++ cmp) ++ hd ++ concat (map b_data (m_bufs m)).
  Proof.
    unfold FramingModel.frame; intros c m f E.
    destruct (pack 8 _) as [len|] eqn:E1; [|discriminate].
    destruct (pack 2 _) as [cmp|] eqn:E2; [|discriminate].
    inversion E; subst. exists len, cmp.
    rewrite all_writes_concat. repeat split; eauto using pack_length, pack_value.
  Qed.

  Lemma read_cuda_ok : forall fuel size offset r a b,
    flat r = a ++ b -> length a = size - offset -> size - offset <= fuel ->
    exists r', read_cuda cuda_chunk fuel size offset r = Some (a, r') /\ flat r' = b.
  Proof.
    induction fuel; intros size offset r a b E L F; simpl.
    - assert (a = []) by (destruct a; simpl in *; auto; lia). subst. eauto.
    - destruct (Nat.ltb_spec offset size).
      + set (sz := if offset + cuda_chunk <? size then cuda_chunk else size - offset).
        assert (0 < sz <= size - offset).
        { unfold sz. destruct (Nat.ltb_spec (offset + cuda_chunk) size); lia. }
        rewrite <- (firstn_skipn sz a), <- app_assoc in E.
        destruct (readexactly_ok r sz _ _ E) as [r1 [E1 F1]].
        { apply firstn_length_le. lia. }
        rewrite E1.
        destruct (IHfuel size (offset + sz) r1 _ _ F1) as [r2 [E2 F2]].
        { rewrite skipn_length. lia. }
        { lia. }
        rewrite E2. exists r2. rewrite firstn_skipn. auto.
      + assert (a = []) by (destruct a; simpl in *; auto; lia). subst. eauto.
  Qed.

  Lemma read_buffers_ok : forall bs r rest,
    flat r = concat (map b_data bs) ++ rest ->
    exists r', read_buffers cuda_chunk (map b_cuda bs) (map (fun b => length (b_data b)) bs) r
               = Some (bs, r') /\ flat r' = rest.
  Proof.
    induction bs as [|[c d] bs IH]; intros r rest E; cbn [map read_buffers b_cuda b_data].
    - simpl in E. eauto.
    - simpl in E. rewrite <- app_assoc in E.
      assert (R : exists r1, (if c then read_cuda cuda_chunk (length d) (length d) 0 r
                              else readexactly (length d) r) = Some (d, r1)
                             /\ flat r1 = concat (map b_data bs) ++ rest).
      { destruct c.
        - eapply read_cuda_ok; eauto; lia.
        - eapply readexactly_ok; eauto. }
      destruct R as [r1 [E1 F1]]. rewrite E1.
      destruct (IH _ _ F1) as [r2 [E2 F2]]. rewrite E2. eauto.
  Qed.

  Lemma read_cuda_inv : forall fuel size offset r a r',
    read_cuda cuda_chunk fuel size offset r = Some (a, r') -> flat r = a ++ flat r'.
  Proof using Type.
    induction fuel; intros size offset r a r' E; simpl in E.
    - inversion E; auto.
    - destruct (offset <? size); [|inversion E; auto].
      destruct (readexactly _ r) as [[c r1]|] eqn:E1; [|discriminate].
      destruct (read_cuda _ _ _ _ r1) as [[m r2]|] eqn:E2; [|discriminate].
      inversion E; subst. apply readexactly_inv in E1. destruct E1 as [E1 _].
      apply IHfuel in E2. rewrite E1, E2. now rewrite app_assoc.
  Qed.

  Lemma read_buffers_inv : forall cudas sizes r bs r',
    read_buffers cuda_chunk cudas sizes r = Some (bs, r') ->
    flat r = concat (map b_data bs) ++ flat r'.
  Proof using Type.
    induction cudas as [|c cudas IH]; destruct sizes as [|n sizes]; simpl; intros r bs r' E;
      try (inversion E; subst; reflexivity).
    destruct (if c then read_cuda cuda_chunk n n 0 r else readexactly n r) as [[d r1]|] eqn:E1; [|discriminate].
    destruct (read_buffers _ cudas sizes r1) as [[bs' r2]|] eqn:E2; [|discriminate].
    inversion E; subst. simpl. rewrite <- app_assoc. rewrite <- (IH _ _ _ _ E2).
    destruct c.
    - now apply read_cuda_inv in E1.
    - now apply readexactly_inv in E1.
  Qed.

  Lemma version_byte : forall v l, get_header_length (v :: l)
     = if (v =? version)%N then Some (le_value (firstn 8 l)) else None.
  Proof using Type. reflexivity. Qed.

  Lemma recv_ok : forall c m f r rest,
    frame c m = Some f -> flat r = f ++ rest ->
    exists r', recv r = inl (m, r') /\ flat r' = rest.
  Proof.
    intros c m f r rest E F.
    destruct (frame_shape _ _ _ E) as [len [cmp [L8 [L2 [V S]]]]]. subst f.
    rewrite <- !app_assoc in F.
    destruct (readexactly_ok r 11 _ _ F) as [r1 [E1 F1]].
    { simpl. rewrite app_length. lia. }
    unfold FramingModel.recv. rewrite E1, version_byte, N.eqb_refl.
    rewrite firstn_app, L8, Nat.sub_diag, firstn_all2 by lia. cbn [firstn]. rewrite app_nil_r, V, Nat2N.id.
    destruct (readexactly_ok r1 _ _ _ F1 eq_refl) as [r2 [E2 F2]].
    rewrite E2, pickle_ok.
    destruct (read_buffers_ok _ _ _ F2) as [r3 [E3 F3]]. rewrite E3.
    exists r3. split; auto. destruct m; reflexivity.
  Qed.

  Lemma recv_empty : forall r, flat r = [] -> recv r = inr EEof.
  Proof.
    intros r F. unfold FramingModel.recv. rewrite readexactly_short; auto. rewrite F. simpl. lia.
  Qed.

  (** A proper prefix of a frame followed by the end of the stream. *)
  Lemma read_cuda_short : forall fuel size offset r,
    length (flat r) < size - offset -> size - offset <= fuel ->
    read_cuda cuda_chunk fuel size offset r = None.
  Proof.
    induction fuel; intros size offset r L F; [lia|].
    simpl. destruct (Nat.ltb_spec offset size); [|lia].
    set (sz := if offset + cuda_chunk <? size then cuda_chunk else size - offset).
    assert (0 < sz <= size - offset).
    { unfold sz. destruct (Nat.ltb_spec (offset + cuda_chunk) size); lia. }
    destruct (readexactly sz r) as [[a r1]|] eqn:E1; auto.
    destruct (readexactly_inv _ _ _ _ E1) as [E2 L2].
    assert (length (flat r) = sz + length (flat r1)) by (rewrite E2, app_length; lia).
    rewrite IHfuel; auto; lia.
  Qed.

  Lemma read_buffers_short : forall bs r,
    length (flat r) < length (concat (map b_data bs)) ->
    read_buffers cuda_chunk (map b_cuda bs) (map (fun b => length (b_data b)) bs) r = None.
  Proof.
    induction bs as [|[c d] bs IH]; intros r L; cbn [map read_buffers b_cuda b_data].
    - simpl in L. lia.
    - simpl in L. rewrite app_length in L.
      destruct (if c then read_cuda cuda_chunk (length d) (length d) 0 r
                else readexactly (length d) r) as [[a r1]|] eqn:E1; auto.
      assert (length (flat r) = length d + length (flat r1)).
      { destruct c.
        - destruct (Nat.lt_ge_cases (length (flat r)) (length d)).
          + rewrite read_cuda_short in E1 by lia. discriminate.
          + destruct (read_cuda_ok (length d) (length d) 0 r
                        (firstn (length d) (flat r)) (skipn (length d) (flat r))) as [r' [E2 F2]].
            * symmetry; apply firstn_skipn.
            * rewrite firstn_length_le; lia.
            * lia.
            * rewrite E2 in E1. inversion E1; subst. rewrite F2, skipn_length. lia.
        - destruct (readexactly_inv _ _ _ _ E1) as [E2 L2]. rewrite E2, app_length. lia. }
      rewrite IH; auto. lia.
  Qed.

  Lemma app_eq_prefix : forall A (a b c d : list A),
    a ++ b = c ++ d -> length a <= length c -> exists e, c = a ++ e.
  Proof.
    induction a; intros b c d E L; simpl in *.
    - exists c; auto.
    - destruct c as [|x c]; simpl in *; [lia|]. inversion E; subst.
      destruct (IHa b c d H2) as [e Ee]; [lia|]. exists e. now rewrite Ee.
  Qed.

  Lemma recv_truncated : forall c m f r p q,
    frame c m = Some f -> f = p ++ q -> q <> [] -> flat r = p -> recv r = inr EEof.
  Proof.
    intros c m f r p q E S Q F.
    destruct (frame_shape _ _ _ E) as [len [cmp [L8 [L2 [V Sh]]]]].
    set (hd := pickle _) in *. rewrite Sh in S. clear Sh E.
    unfold FramingModel.recv.
    destruct (Nat.lt_ge_cases (length p) 11) as [Lp|Lp].
    { rewrite readexactly_short; auto. now rewrite F. }
    destruct (app_eq_prefix _ (version :: len ++ cmp) (hd ++ concat (map b_data (m_bufs m))) p q S)
      as [p1 P1].
    { simpl. rewrite app_length. lia. }
    rewrite P1 in S, F. rewrite <- app_assoc in S. apply app_inv_head in S.
    destruct (readexactly_ok r 11 _ _ F) as [r1 [E1 F1]].
    { simpl. rewrite app_length. lia. }
    rewrite E1, version_byte, N.eqb_refl.
    rewrite firstn_app, L8, Nat.sub_diag, firstn_all2 by lia. cbn [firstn]. rewrite app_nil_r, V, Nat2N.id.
    destruct (Nat.lt_ge_cases (length p1) (length hd)) as [Lh|Lh].
    { rewrite readexactly_short; auto. now rewrite F1. }
    destruct (app_eq_prefix _ _ _ _ _ S Lh) as [p2 P2]. rewrite P2 in S, F1.
    rewrite <- app_assoc in S. apply app_inv_head in S.
    destruct (readexactly_ok r1 _ _ _ F1 eq_refl) as [r2 [E2 F2]].
    rewrite E2. unfold hd. rewrite pickle_ok. rewrite read_buffers_short; auto.
    rewrite F2, S, app_length. destruct q; [congruence|]. simpl. lia.
  Qed.

  Lemma recv_bad_version : forall r v rest,
    flat r = v :: rest -> v <> version -> recv r = inr EEof.
  Proof.
    intros r v rest F Nv. unfold FramingModel.recv.
    destruct (readexactly 11 r) as [[hb r1]|] eqn:E1; auto.
    destruct (readexactly_inv _ _ _ _ E1) as [E2 L2].
    destruct hb as [|v' hb]; [simpl in L2; lia|].
    rewrite F in E2. inversion E2; subst v'. rewrite version_byte.
    destruct (N.eqb_spec v version); congruence.
  Qed.

  Lemma recv_all_stream : forall c ms s r rest fuel,
    stream c ms = Some s -> flat r = s ++ rest ->
    exists r', flat r' = rest /\
      recv_all (length ms + fuel) r = (ms ++ fst (recv_all fuel r'), snd (recv_all fuel r')).
  Proof.
    induction ms as [|m ms IH]; intros s r rest fuel E F; simpl in *.
    - inversion E; subst. exists r. split; auto. now destruct (recv_all fuel r).
    - destruct (frame c m) as [f|] eqn:Ef; [|discriminate].
      destruct (stream c ms) as [s'|] eqn:Es; [|discriminate].
      inversion E; subst. rewrite <- app_assoc in F.
      destruct (recv_ok _ _ _ _ _ Ef F) as [r1 [E1 F1]]. rewrite E1.
      destruct (IH s' r1 rest fuel eq_refl F1) as [r' [Fr Er]]. exists r'. split; auto.
      rewrite Er. reflexivity.
  Qed.

  Lemma roundtrip : forall c ms s chunks fuel,
    stream c ms = Some s -> concat chunks = s ->
    recv_all (length ms + S fuel) (Reader [] chunks) = (ms, Some EEof).
  Proof.
    intros c ms s chunks fuel E F.
    destruct (recv_all_stream c ms s (Reader [] chunks) [] (S fuel) E) as [r' [Fr Er]].
    { unfold flat; simpl. now rewrite app_nil_r. }
    rewrite Er. simpl. rewrite (recv_empty r' Fr). simpl. now rewrite app_nil_r.
  Qed.

  Lemma truncated : forall c ms s m f p q chunks fuel,
    stream c ms = Some s -> frame c m = Some f -> f = p ++ q -> q <> [] ->
    concat chunks = s ++ p ->
    recv_all (length ms + S fuel) (Reader [] chunks) = (ms, Some EEof).
  Proof.
    intros c ms s m f p q chunks fuel E Ef Sp Q F.
    destruct (recv_all_stream c ms s (Reader [] chunks) p (S fuel) E F) as [r' [Fr Er]].
    rewrite Er. simpl. rewrite (recv_truncated c m f r' p q); auto. simpl. now rewrite app_nil_r.
  Qed.

  Lemma bad_version : forall c ms s v rest chunks fuel,
    stream c ms = Some s -> v <> version -> concat chunks = s ++ v :: rest ->
    recv_all (length ms + S fuel) (Reader [] chunks) = (ms, Some EEof).
  Proof.
    intros c ms s v rest chunks fuel E Nv F.
    destruct (recv_all_stream c ms s (Reader [] chunks) (v :: rest) (S fuel) E F) as [r' [Fr Er]].
    rewrite Er. simpl. rewrite (recv_bad_version r' v rest); auto. simpl. now rewrite app_nil_r.
  Qed.

  Lemma recv_inv : forall r m r', recv r = inl (m, r') ->
    exists len cmp hd cudas sizes,
      length len = 8 /\ length cmp = 2 /\ le_value len = N.of_nat (length hd) /\
      unpickle hd = Some (cudas, sizes, m_head m) /\
      flat r = (version :: len ++ cmp) ++ hd ++ concat (map b_data (m_bufs m)) ++ flat r'.
  Proof using Type.
    clear chunk_pos. unfold FramingModel.recv; intros r m r' E.
    destruct (readexactly 11 r) as [[hb r1]|] eqn:E1; [|discriminate].
    destruct hb as [|v hb].
    { apply readexactly_inv in E1. simpl in E1. lia. }
    rewrite version_byte in E. destruct (N.eqb_spec v version); [|discriminate].
    destruct (readexactly (N.to_nat _) r1) as [[h r2]|] eqn:E2; [|discriminate].
    destruct (unpickle h) as [[[cudas sizes] hd]|] eqn:E3; [|discriminate].
    destruct (read_buffers cuda_chunk cudas sizes r2) as [[bs r3]|] eqn:E4; [|discriminate].
    inversion E; subst. clear E.
    apply readexactly_inv in E1. destruct E1 as [F1 L1].
    apply readexactly_inv in E2. destruct E2 as [F2 L2].
    apply read_buffers_inv in E4. simpl in L1.
    exists (firstn 8 hb), (skipn 8 hb), h, cudas, sizes. cbn [m_head m_bufs].
    repeat split; auto.
    - apply firstn_length_le; lia.
    - rewrite skipn_length. lia.
    - rewrite L2. now rewrite N2Nat.id.
    - rewrite firstn_skipn. rewrite F1, F2, E4. reflexivity.
  Qed.
End P.
