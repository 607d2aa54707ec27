(** * CopyConcProofs: lemmas about concurrent copies *)
From Coq Require Import List Arith Bool Lia.
From Verif Require Import CopyModel CopyProofs CopyConcModel.
Import ListNotations.

Section P.
Context {A : Type}.
Notation buf := (buf A).
Notation st := (@st A).
Notation event := (@event A).
Notation copy := (@copy A).

Lemma upd_same {X} (m : nat -> X) k x : upd m k x k = x.
Proof. unfold upd. now rewrite Nat.eqb_refl. Qed.
Lemma upd_other {X} (m : nat -> X) k x j : j <> k -> upd m k x j = m j.
Proof. unfold upd. destruct (Nat.eqb_spec j k); [contradiction|auto]. Qed.

Lemma run_app (tr1 : list event) : forall (s : st) tr2, run s (tr1 ++ tr2) = match run s tr1 with Some s' => run s' tr2 | None => None end.
Proof. induction tr1 as [|x tr IH]; intros s tr2; cbn; auto. destruct (step s x); auto. Qed.

(** ** Pieces *)
Definition correct (p : piece A) (b : buf) : Prop :=
  length (p_data p) = p_len p /\ p_start p + p_len p <= length b /\
  forall i, p_start p <= i < p_start p + p_len p -> nth_error (p_data p) (i - p_start p) = nth_error b i.
Definition inside (p : piece A) (i : nat) : Prop := p_start p <= i < p_start p + p_len p.

Lemma covers_correct uid start ps rest : covers A uid start ps rest -> forall pre, length pre = start ->
  (forall p, In p ps -> p_uid p = uid /\ correct p (pre ++ rest)) /\
  (forall i, start <= i < start + length rest -> exists p, In p ps /\ inside p i).
Proof.
  induction 1 as [start|start d ps rest H IH]; intros pre L.
  - split; [intros p []|cbn; intros; lia].
  - destruct (IH (pre ++ d)) as (I1 & I2); [rewrite app_length; lia|]. split.
    + intros p [<-|I].
      * split; [reflexivity|]. split; [reflexivity|]. split; [cbn; rewrite !app_length; lia|]. cbn. intros i Hi.
        rewrite nth_error_app2 by lia. rewrite nth_error_app1 by lia. f_equal. lia.
      * rewrite app_assoc. auto.
    + intros i Hi. rewrite app_length in Hi. destruct (Nat.lt_ge_cases i (start + length d)) as [G|G].
      * eexists. split; [now left|]. unfold inside. cbn. lia.
      * destruct (I2 i) as (p & I & P); [lia|]. exists p. split; [now right|auto].
Qed.
Lemma all_covers_correct l ps : all_covers A l ps ->
  (forall p, In p ps -> exists b, In (p_uid p, b) l /\ correct p b) /\
  (forall u b, In (u, b) l -> forall i, i < length b -> exists p, In p ps /\ p_uid p = u /\ inside p i).
Proof.
  induction 1 as [|uid b l ps qs C AC (I1 & I2)].
  - split; [intros p []|intros u b []].
  - destruct (covers_correct _ _ _ _ C [] eq_refl) as (C1 & C2). cbn [app length plus] in *. split.
    + intros p I. apply in_app_or in I. destruct I as [I|I].
      * destruct (C1 p I) as (<- & K). exists b. split; [now left|auto].
      * destruct (I1 p I) as (b' & J & K). exists b'. split; [now right|auto].
    + intros u b' [Q|I] i Hi.
      * inversion Q; subst. destruct (C2 i) as (p & J & K); [lia|]. exists p. split; [apply in_or_app; auto|]. split; auto. now apply C1.
      * destruct (I2 u b' I i Hi) as (p & J & K). exists p. split; [apply in_or_app; auto|auto].
Qed.

(** ** Writing pieces *)
Lemma put_piece_frame (s : st) p s' : put_piece s p = Some s' ->
  exists o x x', get_buffer s (p_uid p) = Some (o, x) /\ s' = set_heap s o (Live (Buffer x')) /\ length x' = length x.
Proof.
  unfold put_piece. destruct (get_buffer s (p_uid p)) as [[o x]|]; [|discriminate]. cbv zeta.
  destruct (Nat.eqb_spec (min (p_start p + p_len p) (length x) - min (p_start p) (length x)) (length (p_data p))) as [E|]; [|discriminate].
  intros Q. inversion Q. exists o, x. eexists. split; [reflexivity|]. split; [reflexivity|]. rewrite !app_length, firstn_length, skipn_length. lia.
Qed.
Lemma get_buffer_inv (s : st) u o x : get_buffer s u = Some (o, x) <-> bufs s u = Some o /\ heap s o = Live (Buffer x).
Proof.
  unfold get_buffer. split.
  - destruct (bufs s u) as [o'|]; [|discriminate]. destruct (heap s o') as [|[b|]|] eqn:E; try discriminate. intros Q. inversion Q; subst. auto.
  - intros (-> & ->). reflexivity.
Qed.
Lemma get_file_inv (s : st) u o x : get_file s u = Some (o, x) <-> fls s u = Some o /\ heap s o = Live (File x).
Proof.
  unfold get_file. split.
  - destruct (fls s u) as [o'|]; [|discriminate]. destruct (heap s o') as [|[b|]|] eqn:E; try discriminate. intros Q. inversion Q; subst. auto.
  - intros (-> & ->). reflexivity.
Qed.
Lemma put_piece_ok (s : st) p o x b : get_buffer s (p_uid p) = Some (o, x) -> length x = length b -> correct p b ->
  exists x', put_piece s p = Some (set_heap s o (Live (Buffer x'))) /\ length x' = length b /\
    forall i, (inside p i -> nth_error x' i = nth_error b i) /\ (~ inside p i -> nth_error x' i = nth_error x i).
Proof.
  intros G L (C1 & C2 & C3). unfold put_piece. rewrite G. cbv zeta. rewrite (Nat.min_l (p_start p)) by lia. rewrite (Nat.min_l (p_start p + p_len p)) by lia.
  replace (p_start p + p_len p - p_start p =? length (p_data p)) with true by (symmetry; apply Nat.eqb_eq; lia).
  eexists. split; [reflexivity|]. assert (LF : length (firstn (p_start p) x) = p_start p) by (rewrite firstn_length; lia).
  split; [rewrite !app_length, skipn_length; lia|]. intros i. unfold inside. split; intros Hi.
  - rewrite nth_error_app2 by lia. rewrite nth_error_app1 by lia. rewrite LF. now apply C3.
  - destruct (Nat.lt_ge_cases i (p_start p)) as [G1|G1].
    + rewrite nth_error_app1 by lia. rewrite <- (firstn_skipn (p_start p) x) at 2. rewrite nth_error_app1; [reflexivity|lia].
    + rewrite nth_error_app2 by lia. rewrite nth_error_app2 by lia. rewrite LF.
      rewrite <- (firstn_skipn (p_start p + p_len p) x) at 2. rewrite nth_error_app2 by (rewrite firstn_length; lia). f_equal. rewrite firstn_length. lia.
Qed.

(** Whatever is written: lengths stay, registries stay. *)
Lemma put_pieces_frame ps : forall s : st, bufs (put_pieces s ps) = bufs s /\ fls (put_pieces s ps) = fls s /\ wire (put_pieces s ps) = wire s /\ copies (put_pieces s ps) = copies s /\
  (forall o x, heap s o = Live (Buffer x) -> exists x', heap (put_pieces s ps) o = Live (Buffer x') /\ length x' = length x) /\
  (forall o, (forall x, heap s o <> Live (Buffer x)) -> heap (put_pieces s ps) o = heap s o).
Proof.
  induction ps as [|p ps IH]; intros s; cbn [put_pieces]; [repeat split; eauto|].
  destruct (put_piece s p) as [s1|] eqn:E; [|repeat split; eauto].
  apply put_piece_frame in E. destruct E as (o1 & x1 & x1' & G & -> & L). apply get_buffer_inv in G. destruct G as (_ & G).
  destruct (IH (set_heap s o1 (Live (Buffer x1')))) as (I1 & I2 & I3 & I4 & I5 & I6). rewrite I1, I2, I3, I4. repeat split; auto.
  - intros o x H. destruct (Nat.eq_dec o o1) as [->|N].
    + destruct (I5 o1 x1') as (x' & Q & L'); [cbn; apply upd_same|]. exists x'. split; auto. congruence.
    + apply I5. cbn. now rewrite upd_other.
  - intros o H. destruct (Nat.eq_dec o o1) as [->|N]; [now elim (H x1)|]. rewrite I6; cbn; rewrite upd_other by auto; auto.
Qed.
(** Correct pieces do not spoil what is there. *)
Lemma put_pieces_keep ps b o : forall (s : st) x, heap s o = Live (Buffer x) -> length x = length b ->
  (forall p, In p ps -> bufs s (p_uid p) = Some o -> correct p b) ->
  exists x', heap (put_pieces s ps) o = Live (Buffer x') /\ length x' = length b /\
    forall i, nth_error x i = nth_error b i -> nth_error x' i = nth_error b i.
Proof.
  induction ps as [|p ps IH]; intros s x H L C; cbn [put_pieces]; [eauto|].
  destruct (put_piece s p) as [s1|] eqn:E; [|eauto].
  destruct (put_piece_frame _ _ _ E) as (o1 & x1 & x1' & G & -> & L1). pose proof G as G0. apply get_buffer_inv in G0. destruct G0 as (G1 & G2).
  destruct (Nat.eq_dec o1 o) as [->|N].
  - assert (x1 = x) by congruence. subst x1. destruct (put_piece_ok s p o x b G L) as (x2 & Q & L2 & K); [apply C; [now left|auto]|].
    rewrite Q in E. assert (x2 = x1').
    { assert (Z : heap (set_heap s o (Live (Buffer x2))) o = heap (set_heap s o (Live (Buffer x1'))) o) by congruence. cbn in Z. rewrite !upd_same in Z. now inversion Z. }
    subst x2. destruct (IH (set_heap s o (Live (Buffer x1'))) x1') as (x' & I1 & I2 & I3); auto.
    + cbn. apply upd_same.
    + intros q I. cbn. apply C. now right.
    + exists x'. split; auto. split; auto. intros i Hi. apply I3. destruct (K i) as (K1 & K2).
      destruct (le_lt_dec (p_start p) i); [destruct (lt_dec i (p_start p + p_len p))|]; [apply K1; unfold inside; lia|rewrite K2; auto; unfold inside; lia|rewrite K2; auto; unfold inside; lia].
  - destruct (IH (set_heap s o1 (Live (Buffer x1'))) x) as (x' & I1 & I2 & I3); auto.
    + cbn. rewrite upd_other; auto.
    + intros q I. cbn. apply C. now right.
    + eauto.
Qed.
(** Pieces whose targets are in order are all written. *)
Lemma put_pieces_all ps b o : forall (s : st) x, heap s o = Live (Buffer x) -> length x = length b ->
  (forall p, In p ps -> bufs s (p_uid p) = Some o -> correct p b) ->
  (forall p, In p ps -> exists b' o' x', bufs s (p_uid p) = Some o' /\ heap s o' = Live (Buffer x') /\ length x' = length b' /\ correct p b') ->
  exists x', heap (put_pieces s ps) o = Live (Buffer x') /\ length x' = length b /\
    forall i, nth_error x i = nth_error b i \/ (exists p, In p ps /\ bufs s (p_uid p) = Some o /\ inside p i) -> nth_error x' i = nth_error b i.
Proof.
  induction ps as [|p ps IH]; intros s x H L C T; cbn [put_pieces].
  - exists x. repeat split; auto. intros i [Q|(p & [] & _)]. auto.
  - destruct (T p (or_introl eq_refl)) as (b1 & o1 & x1 & T1 & T2 & T3 & T4).
    destruct (put_piece_ok s p o1 x1 b1) as (x2 & E & L2 & K); [now apply get_buffer_inv|auto|auto|]. rewrite E.
    assert (T' : forall q, In q ps -> exists b' o' x', bufs (set_heap s o1 (Live (Buffer x2))) (p_uid q) = Some o' /\ heap (set_heap s o1 (Live (Buffer x2))) o' = Live (Buffer x') /\ length x' = length b' /\ correct q b').
    { intros q I. destruct (T q (or_intror I)) as (b' & o' & x' & Q1 & Q2 & Q3 & Q4). exists b', o'. destruct (Nat.eq_dec o' o1) as [->|N].
      - exists x2. cbn. rewrite upd_same. split; [exact Q1|]. split; [reflexivity|]. split; [congruence|exact Q4].
      - exists x'. cbn. rewrite upd_other by auto. auto. }
    assert (C' : forall q, In q ps -> bufs (set_heap s o1 (Live (Buffer x2))) (p_uid q) = Some o -> correct q b) by (intros q I; cbn; apply C; now right).
    destruct (Nat.eq_dec o1 o) as [->|N].
    + assert (x1 = x) by congruence. subst x1. specialize (C p (or_introl eq_refl) T1).
      destruct (put_piece_ok s p o x b) as (x3 & E3 & L3 & K3); [now apply get_buffer_inv|auto|auto|].
      assert (x3 = x2).
      { rewrite E in E3. assert (Z : heap (set_heap s o (Live (Buffer x2))) o = heap (set_heap s o (Live (Buffer x3))) o) by congruence. cbn in Z. rewrite !upd_same in Z. now inversion Z. }
      subst x3. destruct (IH (set_heap s o (Live (Buffer x2))) x2) as (x' & I1 & I2 & I3); auto; [cbn; apply upd_same|].
      exists x'. split; auto. split; auto. intros i Hi. apply I3.
      assert (DEC : inside p i \/ ~ inside p i) by (unfold inside; lia). destruct (K3 i) as (K1 & K2). destruct DEC as [D|D]; [left; auto|].
      destruct Hi as [Hi|(q & [->|I] & Q1 & Q2)]; [left; rewrite K2; auto|contradiction|right; exists q; auto].
    + destruct (IH (set_heap s o1 (Live (Buffer x2))) x) as (x' & I1 & I2 & I3); auto; [cbn; rewrite upd_other; auto|].
      exists x'. split; auto. split; auto. intros i [Hi|(q & [->|I] & Q1 & Q2)]; apply I3; [auto|congruence|right; exists q; auto].
Qed.

(** ** What a copy still has to write *)
Definition in_msg (m : @msg A) : list (piece A) := match m with BufMsg ps => ps | FileMsg _ => [] end.
Definition bpend (k : copy) : list (piece A) := (match flying k with OnWire m => in_msg m | _ => [] end) ++ flat_map in_msg (todo k).
Definition in_fmsg (m : @msg A) : list (fpiece A) := match m with BufMsg _ => [] | FileMsg ps => ps end.
Definition fpend (k : copy) : list (fpiece A) := (match flying k with OnWire m => in_fmsg m | Busy ps => ps | _ => [] end) ++ flat_map in_fmsg (todo k).

Lemma flat_bufs (ms : list (list (piece A))) : flat_map in_msg (map BufMsg ms) = concat ms.
Proof. induction ms; cbn; congruence. Qed.
Lemma flat_files (ms : list (list (fpiece A))) : flat_map in_fmsg (map FileMsg ms) = concat ms.
Proof. induction ms; cbn; congruence. Qed.
Lemma flat_bufs_f (ms : list (list (piece A))) : flat_map in_fmsg (map BufMsg ms) = [].
Proof. induction ms; cbn; auto. Qed.
Lemma flat_files_b (ms : list (list (fpiece A))) : flat_map in_msg (map FileMsg ms) = [].
Proof. induction ms; cbn; auto. Qed.

(** ** Channels and states *)
Record Inv (s : st) : Prop := {
  w_wire : forall h c, In c (wire s h) <-> exists k m, copies s c = Some k /\ chan k = h /\ flying k = OnWire m;
  w_once : forall h, NoDup (wire s h);
  w_fin : forall c k, copies s c = Some k -> state k = Finished -> todo k = [] /\ flying k = Idle;
  w_can : forall c k, copies s c = Some k -> state k = Cancelled -> todo k = [] }.

Lemma inv_fresh : Inv fresh.
Proof. split; cbn; intros; try discriminate; [|constructor]. split; [intros []|intros (k & m & Q & _); discriminate]. Qed.

(** [c] gets a new record that is not on the wire, as before. *)
Lemma inv_set (s : st) c k : Inv s -> (forall k0 m, copies s c = Some k0 -> flying k0 <> OnWire m) -> (forall m, flying k <> OnWire m) ->
  (state k = Finished -> todo k = [] /\ flying k = Idle) -> (state k = Cancelled -> todo k = []) -> Inv (set_copy s c k).
Proof.
  intros [W1 W2 W3 W4] N0 N1 F1 F2. split; cbn.
  - intros h c'. rewrite W1. split; intros (k' & m & Q & C & O).
    + exists k', m. rewrite upd_other; auto. intros ->. now elim (N0 k' m).
    + destruct (Nat.eq_dec c' c) as [->|N]; [rewrite upd_same in Q; inversion Q; subst; now elim (N1 m)|]. rewrite upd_other in Q by auto. eauto.
  - auto.
  - intros c' k'. unfold upd. destruct (Nat.eqb_spec c' c); [intros Q; inversion Q; subst; auto|apply W3].
  - intros c' k'. unfold upd. destruct (Nat.eqb_spec c' c); [intros Q; inversion Q; subst; auto|apply W4].
Qed.
Lemma inv_heap (s s' : st) : Inv s -> wire s' = wire s -> copies s' = copies s -> Inv s'.
Proof. intros [W1 W2 W3 W4] E1 E2. split; rewrite ?E1, ?E2; auto. Qed.

Lemma inv_begin (s : st) c h ms s' : Inv s -> begin s c h ms = Some s' -> Inv s'.
Proof.
  intros I. unfold begin. destruct (copies s c) eqn:E; [discriminate|]. intros Q. inversion Q; subst. apply inv_set; auto; cbn; try discriminate; try congruence; destruct ms; try discriminate; auto.
Qed.
(** What [Take] leaves behind. *)
Lemma take_inv (s : st) c s' : step s (Take c) = Some s' -> exists h t m a w, copies s c = Some (mkC h t (OnWire m) a) /\ wire s h = c :: w /\
  s' = match m with
       | BufMsg ps => set_copy (put_pieces (set_wire s h w) ps) c (mkC h t Handled a)
       | FileMsg ps => set_copy (set_wire s h w) c (mkC h t (Busy ps) a) end.
Proof.
  cbn. destruct (copies s c) as [[h t [|m| |] a]|]; try discriminate. destruct (wire s h) as [|c' w] eqn:W; [discriminate|].
  destruct (Nat.eqb_spec c' c) as [->|]; [|discriminate]. intros Q. exists h, t, m, a, w. repeat split; auto. destruct m; now inversion Q.
Qed.
Lemma inv_step (s : st) x s' : Inv s -> step s x = Some s' -> Inv s'.
Proof.
  intros I S. destruct x as [o v|u o|o|o d|c h block l|c h block l|c|c|c|c|c].
  - cbn in S. destruct (heap s o); try discriminate. destruct v as [|[|]]; try discriminate; inversion S; subst; now apply (inv_heap s).
  - cbn in S. destruct (bufs s u); [discriminate|]. destruct (fls s u); [discriminate|]. destruct (heap s o) as [|[|]|]; try discriminate; inversion S; subst; now apply (inv_heap s).
  - cbn in S. destruct (heap s o); try discriminate. inversion S; subst. now apply (inv_heap s).
  - cbn in S. destruct (heap s o) as [|[b|ws]|]; try discriminate; [destruct (_ =? _); [|discriminate]|]; inversion S; subst; now apply (inv_heap s).
  - cbn [step] in S. destruct block; [discriminate|]. destruct l; [discriminate|]. destruct (messages _ _ _); [|discriminate]. now apply inv_begin in S.
  - cbn [step] in S. destruct block; [discriminate|]. destruct l; [discriminate|]. destruct (fmessages _ _ _); [|discriminate]. now apply inv_begin in S.
  - cbn in S. destruct (copies s c) as [[h [|m t] [| | |] [| |]]|] eqn:E; try discriminate. inversion S; subst; clear S. destruct I as [W1 W2 W3 W4].
    assert (NI : forall h', ~ In c (wire s h')) by (intros h' J; apply W1 in J; destruct J as (k & m' & Q & _ & O); rewrite E in Q; inversion Q; subst; discriminate).
    split; cbn.
    + intros h' c'. destruct (Nat.eq_dec c' c) as [->|N].
      * rewrite upd_same. unfold upd. destruct (Nat.eqb_spec h' h) as [->|N'].
        -- split; [intros _; eexists; eexists; repeat split; reflexivity|]. intros _. apply in_or_app. right. now left.
        -- split; [intros J; now elim (NI h')|]. intros (k & m' & Q & C & _). inversion Q; subst. now elim N'.
      * rewrite (upd_other _ c) by auto. unfold upd. destruct (Nat.eqb_spec h' h) as [->|N']; [rewrite in_app_iff|]; rewrite W1; [|reflexivity].
        split; [intros [J|[J|[]]]; [auto|congruence]|auto].
    + intros h'. unfold upd. destruct (Nat.eqb_spec h' h) as [->|N']; auto. specialize (NI h). specialize (W2 h). clear -NI W2. induction (wire s h) as [|y w IH]; cbn; [repeat constructor; auto|].
      inversion W2; subst. constructor; [rewrite in_app_iff; cbn; intros [J|[->|[]]]; [auto|apply NI; now left]|]. apply IH; auto. intros J. apply NI. now right.
    + intros c' k'. unfold upd. destruct (Nat.eqb_spec c' c); [intros Q; inversion Q; subst; discriminate|apply W3].
    + intros c' k'. unfold upd. destruct (Nat.eqb_spec c' c); [intros Q; inversion Q; subst; discriminate|apply W4].
  - apply take_inv in S. destruct S as (h & t & m & a & w & E & W & S). destruct I as [W1 W2 W3 W4].
    assert (ND : NoDup (c :: w)) by (rewrite <- W; auto). inversion ND; subst.
    assert (F3 : a = Finished -> False) by (intros ->; destruct (W3 c _ E eq_refl); discriminate).
    assert (F4 : a = Cancelled -> t = []) by (intros ->; now apply (W4 c _ E)).
    assert (G : forall f s1, (forall m, f <> OnWire m) -> wire s1 = upd (wire s) h w -> copies s1 = copies s -> Inv (set_copy s1 c (mkC h t f a))).
    { intros f s1 NF E1 E2. split; cbn; rewrite ?E1, ?E2.
      - intros h' c'. destruct (Nat.eq_dec c' c) as [->|N].
        + rewrite upd_same. split; [|intros (k & m' & Q & _ & O); inversion Q; subst; now elim (NF m')].
          unfold upd. destruct (Nat.eqb_spec h' h) as [->|N']; [now intros J|]. intros J. apply W1 in J. destruct J as (k & m' & Q & C & _). rewrite E in Q. inversion Q; subst. now elim N'.
        + rewrite (upd_other _ c) by auto. rewrite <- W1. unfold upd. destruct (Nat.eqb_spec h' h) as [->|N']; [|reflexivity]. rewrite W. cbn. intuition congruence.
      - intros h'. unfold upd. destruct (Nat.eqb_spec h' h) as [->|N']; auto.
      - intros c' k'. unfold upd. destruct (Nat.eqb_spec c' c); [intros Q; inversion Q; subst; cbn; tauto|apply W3].
      - intros c' k'. unfold upd. destruct (Nat.eqb_spec c' c); [intros Q; inversion Q; subst; cbn; auto|apply W4]. }
    destruct m as [ps|ps].
    + destruct (put_pieces_frame ps (set_wire s h w)) as (_ & _ & P3 & P4 & _). apply G; auto; discriminate.
    + apply G; auto; discriminate.
  - cbn in S. destruct (copies s c) as [[h t [| |[|p r]|] a]|] eqn:E; try discriminate.
    assert (F : a = Finished -> False) by (intros ->; destruct (w_fin _ I c _ E eq_refl); discriminate).
    assert (F4 : a = Cancelled -> t = []) by (intros ->; now apply (w_can _ I c _ E)).
    destruct (get_file s (f_uid p)) as [[o ws]|]; inversion S; subst; apply inv_set; cbn; auto; try discriminate; try tauto; try (intros k0 m Q; rewrite E in Q; inversion Q; subst; discriminate).
    now apply (inv_heap s).
  - cbn in S. destruct (copies s c) as [[h t [| |[|p r]|] a]|] eqn:E; try discriminate;
      assert (F : a = Finished -> False) by (intros ->; destruct (w_fin _ I c _ E eq_refl); discriminate);
      assert (F4 : a = Cancelled -> t = []) by (intros ->; now apply (w_can _ I c _ E));
      inversion S; subst; apply inv_set; cbn; auto; try discriminate; try (intros k0 m Q; rewrite E in Q; inversion Q; subst; discriminate);
      destruct a; try tauto; destruct t; try discriminate; auto.
  - cbn in S. destruct (copies s c) as [[h t f [| |]]|] eqn:E; try discriminate. inversion S; subst; clear S. destruct I as [W1 W2 W3 W4]. split; cbn.
    + intros h' c'. rewrite W1. destruct (Nat.eq_dec c' c) as [->|N].
      * rewrite upd_same, E. split; intros (k & m & Q & C & O); inversion Q; subst; cbn in *; eauto 6.
      * now rewrite upd_other by auto.
    + auto.
    + intros c' k'. unfold upd. destruct (Nat.eqb_spec c' c); [intros Q; inversion Q; subst; discriminate|apply W3].
    + intros c' k'. unfold upd. destruct (Nat.eqb_spec c' c); [intros Q; inversion Q; subst; auto|apply W4].
Qed.
Lemma inv_run tr : forall s s' : st, Inv s -> run s tr = Some s' -> Inv s'.
Proof.
  induction tr as [|x tr IH]; intros s s' I E; cbn in E; [now inversion E; subst|]. destruct (step s x) as [s1|] eqn:S; [|discriminate].
  apply (IH s1); auto. now apply (inv_step s x).
Qed.
End P.
