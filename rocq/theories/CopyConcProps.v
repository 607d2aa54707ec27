(** * CopyConcProps: C75, copies made at the same time

    Reading guide.  [run fresh tr = Some s]: the events [tr] (objects and references that are
    made and vanish, copies that begin, send, are received, answered and cancelled, in any order)
    are possible and lead to [s].  [BeginB c h block l]: copy [c] of buffers begins, over channel
    [h]; [l]: the references' uids with the contents of the local buffers; [BeginF]: of files.
    [bufs s u = Some o]: reference [u] is to buffer [o]; [heap s o]: what is in it.
    [state k = Finished]: copy_to has returned. *)
From Coq Require Import List Arith Bool Lia.
From Verif Require Import CopyModel CopyProofs CopyConcModel CopyConcProofs CopyConcMain CopyConcFiles.
Import ListNotations.

Section Props.
Context {A : Type}.
Notation buf := (buf A).
Notation st := (@st A).
Notation event := (@event A).

Lemma list_ext {X} : forall a b : list X, (forall i, nth_error a i = nth_error b i) -> a = b.
Proof.
  induction a as [|x a IH]; intros [|y b] H; auto; try (specialize (H 0); discriminate).
  pose proof (H 0) as H0. cbn in H0. inversion H0; subst. f_equal. apply IH. intros i. exact (H (S i)).
Qed.
Lemma begun_once (tr : list event) : forall (s s' : st) c k, copies s c = Some k -> run s tr = Some s' ->
  forall h block, (forall l, ~ In (BeginB c h block l) tr) /\ (forall l, ~ In (BeginF c h block l) tr).
Proof.
  induction tr as [|x tr IH]; intros s s' c k K E h block; [split; intros l []|]. cbn in E. destruct (step s x) as [s1|] eqn:S; [|discriminate].
  destruct (copies_stay s x s1 c k S K) as (k1 & K1). destruct (IH s1 s' c k1 K1 E h block) as (I1 & I2).
  split; intros l [->|J]; try (now apply (I1 l)); try (now apply (I2 l)); cbn [step] in S; destruct block; try discriminate; destruct l; try discriminate.
  - destruct (messages _ _ _); [|discriminate]. unfold begin in S. rewrite K in S. discriminate.
  - destruct (fmessages _ _ _); [|discriminate]. unfold begin in S. rewrite K in S. discriminate.
Qed.
Lemma copies_run (tr : list event) : forall (s s' : st) c k, copies s c = Some k -> run s tr = Some s' -> exists k', copies s' c = Some k'.
Proof.
  induction tr as [|x tr IH]; intros s s' c k K E; cbn in E; [inversion E; subst; eauto|]. destruct (step s x) as [s1|] eqn:S; [|discriminate].
  destruct (copies_stay s x s1 c k S K) as (k1 & K1). apply (IH s1 s' c k1 K1 E).
Qed.

(** ** Buffers *)
(** What a copy needs: its targets exist when it begins, have the sizes of the local buffers, and
    live on. *)
Definition targets_ok (s1 : st) (l : list (nat * buf)) (tr2 : list event) : Prop :=
  forall u b, In (u, b) l -> exists o x, bufs s1 u = Some o /\ heap s1 o = Live (Buffer x) /\ length x = length b /\ ~ In (Gone o) tr2.

(** When copy_to has returned, each target holds the content of its local buffer, whatever else
    goes on: all other copies into that buffer carry the same content (a copy is repeated, say),
    or were made before, over the same channel, and had returned or been cancelled when this one
    began. *)
Theorem C75_copied : forall tr1 s1 c h block l tr2 s k u b o,
  run fresh tr1 = Some s1 -> run s1 (BeginB c h block l :: tr2) = Some s -> targets_ok s1 l tr2 ->
  In (u, b) l -> bufs s u = Some o ->
  (forall d, ~ In (Own o d) tr2) ->
  (forall d h' block' l' u' b', In (BeginB d h' block' l') (tr1 ++ tr2) -> In (u', b') l' -> bufs s u' = Some o ->
     b' = b \/ (h' = h /\ exists k', copies s1 d = Some k' /\ state k' <> Active)) ->
  (forall u' b', In (u', b') l -> bufs s u' = Some o -> b' = b) ->
  copies s c = Some k -> state k = Finished -> heap s o = Live (Buffer b).
Proof.
  intros tr1 s1 c h block l tr2 s k u b o E1 E2 T IU BU NO OTH SELF K FIN.
  assert (IW1 : Inv s1) by (apply (inv_run tr1 fresh); auto; apply inv_fresh).
  pose proof E2 as E2'. cbn [run] in E2. destruct (step s1 (BeginB c h block l)) as [s2|] eqn:S; [|discriminate].
  assert (IW2 : Inv s2) by now apply (inv_step s1 (BeginB c h block l)). assert (IW : Inv s) by now apply (inv_run tr2 s2).
  pose proof S as S0. cbn [step] in S0. destruct block as [|block]; [discriminate|]. destruct l as [|z l0]; [discriminate|]. set (l := z :: l0) in *.
  destruct (messages _ _ _) as [ms|] eqn:M; [|discriminate]. unfold begin in S0. destruct (copies s1 c) eqn:C1; [discriminate|]. inversion S0 as [Q2]; clear S0.
  destruct (messages_ok A (Datatypes.S block) l ltac:(lia)) as (ms' & M' & C). rewrite M in M'. inversion M'; subst ms'; clear M'. destruct (all_covers_correct l _ C) as (AC1 & AC2).
  assert (BM : forall v o', bufs s1 v = Some o' -> bufs s v = Some o') by (intros v o' Q; now apply (keep_run _ s1 s v o' E2')).
  assert (MN : Main (bufs s) o b c h l s2).
  { split.
    - intros v o'. rewrite <- Q2. cbn. apply BM.
    - intros v b' I. destruct (T v b' I) as (o' & x & T1 & T2 & T3 & _). exists o', x. rewrite <- Q2. cbn. auto.
    - destruct (T u b IU) as (o' & x & T1 & T2 & T3 & _). assert (o' = o) by (apply BM in T1; congruence). subst o'.
      eexists. exists x. rewrite <- Q2. cbn. rewrite upd_same. split; [reflexivity|]. split; [reflexivity|]. split; [exact T2|]. split; [exact T3|].
      unfold bpend. cbn [flying todo app]. rewrite flat_bufs. split; [exact AC1|]. right. left. split.
      + intros i Hi. destruct (AC2 u b IU i Hi) as (p & P1 & P2 & P3). exists p. unfold bpend. cbn [flying todo app]. rewrite flat_bufs. split; auto. split; auto. unfold names. now rewrite P2.
      + intros d. destruct (Nat.eq_dec d c) as [->|N].
        * left. intros k' p K' I N. cbn in K'. rewrite upd_same in K'. inversion K'; subst k'. unfold bpend in I. cbn [flying todo app] in I. rewrite flat_bufs in I.
          destruct (AC1 p I) as (b' & J1 & J2). now rewrite <- (SELF _ b' J1 N).
        * destruct (copies s1 d) as [kd|] eqn:KD; [|left; intros k' p K'; cbn in K'; rewrite upd_other in K' by auto; congruence].
          assert (OKL : (chan kd = h -> state kd = Active) -> okc (bufs s) o b s2 d).
          { intros HA k' p K' I NM. rewrite <- Q2 in K'. cbn in K'. rewrite upd_other in K' by auto. rewrite KD in K'. inversion K'; subst k'.
            destruct (source tr1 s1 E1 d kd p KD I) as (bl & l' & b' & J1 & J2 & J3).
            destruct (OTH d (chan kd) bl l' (p_uid p) b' (in_or_app _ _ _ (or_introl J1)) J2 NM) as [->|(CH & k' & K'' & ST)]; auto.
            rewrite KD in K''. inversion K''; subst k'. tauto. }
          rewrite Q2. destruct (Nat.eq_dec (chan kd) h) as [CH|CH]; [|left; apply OKL; tauto].
          destruct kd as [hd td fd ad]. cbn in CH. subst hd.
          assert (ZERO : todo (mkC h td fd ad) = [] -> (forall m, fd <> OnWire m) -> okc (bufs s) o b s2 d).
          { intros ZT ZF k' p K' I. rewrite <- Q2 in K'. cbn in K'. rewrite upd_other in K' by auto. rewrite KD in K'. inversion K'; subst k'. cbn in ZT. subst td. unfold bpend in I. cbn in I. destruct fd; try destruct I. now elim (ZF m). }
          destruct ad.
          -- left. apply OKL. reflexivity.
          -- left. destruct (w_fin _ IW1 d _ KD eq_refl) as (W1 & W2). apply ZERO; auto. cbn in W2. congruence.
          -- pose proof (w_can _ IW1 d _ KD eq_refl) as W1. destruct fd as [|m| |]; try (left; apply ZERO; auto; discriminate).
             right. eexists. exists m. rewrite <- Q2. cbn. rewrite upd_other by auto. split; [exact KD|]. split; auto. split; [reflexivity|]. split; [exact W1|]. split; [discriminate|]. split; [reflexivity|].
             intros w1 w2 Q. exfalso. assert (J : In c (wire s1 h)) by (rewrite Q; apply in_or_app; right; now left). apply (w_wire _ IW1) in J. destruct J as (k' & m' & J & _). congruence. }
  assert (MF : Main (bufs s) o b c h l s).
  { apply (main_run (bufs s) o b c h l tr2 s2); auto. intros x I. split; [|split; [|split]].
    - intros v b' o' J B' ->. destruct (T v b' J) as (o2 & y & T1 & _ & _ & T4). apply BM in T1. assert (o2 = o') by congruence. subst o2. contradiction.
    - intros ->. destruct (T u b IU) as (o2 & y & T1 & _ & _ & T4). apply BM in T1. assert (o2 = o) by congruence. subst o2. contradiction.
    - intros d ->. now apply (NO d).
    - intros d h' bl l' v b' -> J B'. destruct (OTH d h' bl l' v b' (in_or_app _ _ _ (or_intror I)) J B') as [->|(_ & k' & K' & _)]; auto.
      exfalso. destruct (copies_stay s1 _ s2 d k' S K') as (k2 & K2). now apply (proj1 (begun_once tr2 s2 s d k2 K2 E2 h' bl) l'). }
  destruct MF as [_ _ (k' & x & K' & _ & HX & LX & _ & PH)]. rewrite K in K'. inversion K'; subst k'. destruct (w_fin _ IW c k K FIN) as (W1 & W2).
  assert (NC : forall i, ~ cov (bufs s) o k i).
  { intros i (p & I & _). unfold bpend in I. rewrite W1, W2 in I. destruct I. }
  assert (EX : x = b); [|now subst].
  apply list_ext. intros i. destruct (Nat.lt_ge_cases i (length b)) as [G|G].
  - destruct PH as [PH|[(P1 & _)|(P1 & _)]]; [congruence|now elim (NC i (P1 i G))|]. destruct (P1 i G) as [Z|Z]; auto. now elim (NC i).
  - rewrite (proj2 (nth_error_None x i)), (proj2 (nth_error_None b i)) by lia. reflexivity.
Qed.
(** The usual case: nobody else copies into that buffer. *)
Corollary C75_copied_alone : forall tr1 s1 c h block l tr2 s k u b o,
  run fresh tr1 = Some s1 -> run s1 (BeginB c h block l :: tr2) = Some s -> targets_ok s1 l tr2 ->
  In (u, b) l -> bufs s u = Some o -> (forall d, ~ In (Own o d) tr2) ->
  (forall d h' block' l' u' b', In (BeginB d h' block' l') (tr1 ++ tr2) -> In (u', b') l' -> bufs s u' <> Some o) ->
  (forall u' b', In (u', b') l -> bufs s u' = Some o -> b' = b) ->
  copies s c = Some k -> state k = Finished -> heap s o = Live (Buffer b).
Proof.
  intros tr1 s1 c h block l tr2 s k u b o E1 E2 T IU BU NO OTH SELF K FIN. eapply C75_copied; eauto.
  intros d h' bl l' u' b' J1 J2 J3. elim (OTH d h' bl l' u' b' J1 J2 J3).
Qed.

(** Copies write to their targets only. *)
Theorem C75_only_targets : forall tr1 s1 tr2 s o (y : buf), run fresh tr1 = Some s1 -> run s1 tr2 = Some s ->
  heap s1 o = Live (Buffer y) -> ~ In (Gone o) tr2 -> (forall d, ~ In (Own o d) tr2) ->
  (forall d h block l u b, In (BeginB d h block l) (tr1 ++ tr2) -> In (u, b) l -> bufs s u <> Some o) ->
  heap s o = Live (Buffer y).
Proof.
  intros tr1 s1 tr2. revert tr1 s1. induction tr2 as [|x tr2 IH]; intros tr1 s1 s o y E1 E2 H NG NO NT; cbn in E2; [now inversion E2; subst|].
  destruct (step s1 x) as [s2|] eqn:S; [|discriminate].
  apply (IH (tr1 ++ [x]) s2); auto.
  - rewrite run_app, E1. cbn. now rewrite S.
  - assert (CASES : (exists d, x = Take d) \/ (forall d, x <> Take d)) by (destruct x; try (right; discriminate); eauto).
    destruct CASES as [(d & ->)|N].
    + apply take_inv in S. destruct S as (h & t & m & a & w & E & W & ->). destruct m as [ps|ps]; [|exact H].
      destruct (put_pieces_keep ps y o (set_wire s1 h w) y) as (x' & Q1 & Q2 & Q3); auto.
      * intros p I Q. exfalso. destruct (source tr1 s1 E1 d _ p E) as (bl & l & b & J1 & J2 & _); [unfold bpend; cbn; apply in_or_app; now left|].
        apply (NT d _ bl l (p_uid p) b (in_or_app _ _ _ (or_introl J1)) J2). cbn in Q.
        assert (B2 : bufs (set_copy (put_pieces (set_wire s1 h w) ps) d (mkC h t Handled a)) (p_uid p) = Some o).
        { cbn. destruct (put_pieces_frame ps (set_wire s1 h w)) as (-> & _). exact Q. }
        exact (proj1 (keep_run tr2 _ s (p_uid p) o E2) B2).
      * cbn. rewrite Q1. f_equal. f_equal. apply list_ext. intros i. now apply Q3.
    + apply (same_buffer s1 x); auto; [intros ->; apply NG; now left|intros d ->; apply (NO d); now left].
  - intros J. apply NG. now right.
  - intros d J. apply (NO d). now right.
  - intros d h bl l u b J. apply (NT d h bl l). rewrite <- app_assoc in J. exact J.
Qed.

(** ** References *)
(** A reference is to the buffer it was made for, as long as that exists, and to nothing else,
    ever. *)
Theorem C75_reference : forall tr1 s1 u o tr2 s (y : buf), run fresh tr1 = Some s1 -> run s1 (Ref u o :: tr2) = Some s -> heap s1 o = Live (Buffer y) ->
  (forall o' x, get_buffer s u = Some (o', x) -> o' = o /\ length x = length y) /\
  (get_buffer s u <> None <-> ~ In (Gone o) tr2) /\ get_file s u = None.
Proof.
  intros tr1 s1 u o tr2 s y E1 E2 H. cbn [run] in E2. destruct (step s1 (Ref u o)) as [s2|] eqn:S; [|discriminate].
  cbn in S. destruct (bufs s1 u) eqn:B; [discriminate|]. destruct (fls s1 u) eqn:F; [discriminate|]. rewrite H in S.
  assert (B2 : bufs s2 u = Some o) by (inversion S; subst; cbn; apply upd_same). assert (F2 : fls s2 u = None) by (inversion S; subst; cbn; exact F).
  assert (H2 : heap s2 o = Live (Buffer y)) by (inversion S; subst; cbn; exact H). clear S.
  assert (G : forall (tr : list event) (s s' : st), run s tr = Some s' -> bufs s u = Some o -> fls s u = None -> bufs s' u = Some o /\ fls s' u = None /\
    (forall z, heap s o = Live (Buffer z) -> ~ In (Gone o) tr -> exists z', heap s' o = Live (Buffer z') /\ length z' = length z) /\
    (heap s o = Dead -> heap s' o = Dead) /\
    (forall z, heap s o = Live (Buffer z) -> In (Gone o) tr -> heap s' o = Dead)).
  { clear. induction tr as [|x tr IH]; intros s s' E B F; cbn in E; [inversion E; subst; repeat split; eauto; intros z _ []|].
    destruct (step s x) as [s1|] eqn:S; [|discriminate]. pose proof (keep_bufs s x s1 u o S B) as B1.
    assert (F1 : fls s1 u = None).
    { destruct (fls s1 u) as [o'|] eqn:Q; auto. exfalso. destruct x as [o2 v|u' o2|o2|o2 d|c h block l|c h block l|c|c|c|c|c].
      - cbn in S. destruct (heap s o2); try discriminate. destruct v as [|[|]]; try discriminate; inversion S; subst; cbn in Q; congruence.
      - cbn in S. destruct (bufs s u') eqn:E1; [discriminate|]. destruct (fls s u') eqn:E2; [discriminate|]. destruct (heap s o2) as [|[|]|]; try discriminate; inversion S; subst; cbn in Q; [congruence|].
        unfold upd in Q. destruct (Nat.eqb_spec u u'); congruence.
      - cbn in S. destruct (heap s o2); try discriminate. inversion S; subst; cbn in Q; congruence.
      - cbn in S. destruct (heap s o2) as [|[b|ws]|]; try discriminate; [destruct (_ =? _); [|discriminate]|]; inversion S; subst; cbn in Q; congruence.
      - cbn [step] in S. destruct block; [discriminate|]. destruct l; [discriminate|]. destruct (messages _ _ _); [|discriminate]. unfold begin in S. destruct (copies s c); [discriminate|]. inversion S; subst; cbn in Q; congruence.
      - cbn [step] in S. destruct block; [discriminate|]. destruct l; [discriminate|]. destruct (fmessages _ _ _); [|discriminate]. unfold begin in S. destruct (copies s c); [discriminate|]. inversion S; subst; cbn in Q; congruence.
      - cbn in S. destruct (copies s c) as [[h [|m t] [| | |] [| |]]|]; try discriminate. inversion S; subst; cbn in Q; congruence.
      - apply take_inv in S. destruct S as (h & t & m & a & w & E' & W & ->). destruct m as [ps|ps]; cbn in Q; [|congruence].
        destruct (put_pieces_frame ps (set_wire s h w)) as (_ & Z & _). rewrite Z in Q. cbn in Q. congruence.
      - cbn in S. destruct (copies s c) as [[h t [| |[|p r]|] a]|]; try discriminate. destruct (get_file s (f_uid p)) as [[o2 ws]|]; inversion S; subst; cbn in Q; congruence.
      - cbn in S. destruct (copies s c) as [[h t [| |[|p r]|] a]|]; try discriminate; inversion S; subst; cbn in Q; congruence.
      - cbn in S. destruct (copies s c) as [[h t f [| |]]|]; try discriminate. inversion S; subst; cbn in Q; congruence. }
    destruct (IH s1 s' E B1 F1) as (I1 & I2 & I3 & I4 & I5). split; auto. split; auto. split; [|split].
    - intros z Hz N. destruct (keep_len s x s1 o z S) as (z1 & Q1 & Q2); auto; [intros ->; apply N; now left|].
      destruct (I3 z1 Q1) as (z' & Q3 & Q4); [intros J; apply N; now right|]. exists z'. split; auto. congruence.
    - intros D. apply I4. destruct x as [o2 v|u' o2|o2|o2 d|c h block l|c h block l|c|c|c|c|c].
      + cbn in S. destruct (heap s o2) eqn:E1; try discriminate. destruct v as [|[|]]; try discriminate; inversion S; subst; cbn; rewrite upd_other; auto; congruence.
      + cbn in S. destruct (bufs s u') eqn:E1; [discriminate|]. destruct (fls s u') eqn:E2; [discriminate|]. destruct (heap s o2) as [|[|]|]; try discriminate; inversion S; subst; auto.
      + cbn in S. destruct (heap s o2) eqn:E1; try discriminate. inversion S; subst; cbn. rewrite upd_other; auto; congruence.
      + cbn in S. destruct (heap s o2) as [|[b|ws]|] eqn:E1; try discriminate; [destruct (_ =? _); [|discriminate]|]; inversion S; subst; cbn; rewrite upd_other; auto; congruence.
      + cbn [step] in S. destruct block; [discriminate|]. destruct l; [discriminate|]. destruct (messages _ _ _); [|discriminate]. unfold begin in S. destruct (copies s c); [discriminate|]. inversion S; subst; auto.
      + cbn [step] in S. destruct block; [discriminate|]. destruct l; [discriminate|]. destruct (fmessages _ _ _); [|discriminate]. unfold begin in S. destruct (copies s c); [discriminate|]. inversion S; subst; auto.
      + cbn in S. destruct (copies s c) as [[h [|m t] [| | |] [| |]]|]; try discriminate. inversion S; subst; auto.
      + apply take_inv in S. destruct S as (h & t & m & a & w & E' & W & ->). destruct m as [ps|ps]; cbn; auto.
        destruct (put_pieces_frame ps (set_wire s h w)) as (_ & _ & _ & _ & _ & Z). rewrite Z; cbn; rewrite D; auto; discriminate.
      + cbn in S. destruct (copies s c) as [[h t [| |[|p r]|] a]|]; try discriminate. destruct (get_file s (f_uid p)) as [[o2 ws]|] eqn:GF; inversion S; subst; auto. apply get_file_inv in GF. cbn. rewrite upd_other; auto. intros ->. destruct GF. congruence.
      + cbn in S. destruct (copies s c) as [[h t [| |[|p r]|] a]|]; try discriminate; inversion S; subst; auto.
      + cbn in S. destruct (copies s c) as [[h t f [| |]]|]; try discriminate. inversion S; subst; auto.
    - intros z Hz [->|J].
      + apply I4. cbn in S. rewrite Hz in S. inversion S; subst. cbn. apply upd_same.
      + assert (D : x = Gone o \/ x <> Gone o) by (destruct x; try (right; discriminate); destruct (Nat.eq_dec o0 o) as [->|]; [auto|right; congruence]).
        destruct D as [->|D]; [apply I4; cbn in S; rewrite Hz in S; inversion S; subst; cbn; apply upd_same|].
        destruct (keep_len s x s1 o z S D Hz) as (z1 & Q1 & _). now apply (I5 z1). }
  destruct (G tr2 s2 s E2 B2 F2) as (G1 & G2 & G3 & G4 & G5). split; [|split].
  - intros o' x Q. apply get_buffer_inv in Q. destruct Q as (Q1 & Q2). assert (o' = o) by congruence. subst o'. split; auto.
    destruct (in_dec (fun a b : bool => bool_dec a b) true [existsb (fun e => match e with Gone o' => o' =? o | _ => false end) tr2]) as [[Z|[]]|Z].
    + apply existsb_exists in Z. destruct Z as (e & I & Z). destruct e; try discriminate. apply Nat.eqb_eq in Z. subst. rewrite (G5 y H2 I) in Q2. discriminate.
    + destruct (G3 y H2) as (z' & Q3 & Q4); [|congruence]. intros I. apply Z. left. apply existsb_exists. eexists. split; [exact I|]. apply Nat.eqb_refl.
  - split.
    + intros N I. apply N. unfold get_buffer. rewrite G1, (G5 y H2 I). reflexivity.
    + intros N. destruct (G3 y H2 N) as (z & Q & _). unfold get_buffer. rewrite G1, Q. discriminate.
  - unfold get_file. now rewrite G2.
Qed.

(** ** Files *)
(** What copy [c] has written to a file with these pieces, put together. *)
Definition from (c : nat) (ws : list (option nat * buf)) : list A :=
  concat (map snd (filter (fun w => match fst w with Some d => d =? c | None => false end) ws)).
(** What copy_to was given for file [o]. *)
Definition given (s : st) (o : nat) (l : list (nat * file A)) : list A :=
  concat (map (fun r => content A (snd r)) (filter (fun r => match fls s (fst r) with Some o' => o' =? o | None => false end) l)).
Definition ftargets_ok (s1 : st) (l : list (nat * file A)) (tr2 : list event) : Prop :=
  forall u f, In (u, f) l -> exists o ws, fls s1 u = Some o /\ heap s1 o = Live (File ws) /\ ~ In (Gone o) tr2.

(** Whatever other copies write to the same file at the same time: what this copy has written is,
    in order, the beginning of what it was given for that file, and all of it when copy_to has
    returned. *)
Theorem C75_file_in_order : forall (tr1 : list event) s1 c h block l tr2 s u f,
  run fresh tr1 = Some s1 -> run s1 (BeginF c h block l :: tr2) = Some s ->
  (forall d h' block' l', In (BeginF d h' block' l') (tr1 ++ BeginF c h block l :: tr2) -> Forall (fun r => proper A (snd r)) l') ->
  ftargets_ok s1 l tr2 -> In (u, f) l ->
  exists o ws k, fls s u = Some o /\ heap s o = Live (File ws) /\ copies s c = Some k /\
    (exists rest, given s o l = from c ws ++ rest) /\ (state k = Finished -> from c ws = given s o l).
Proof.
  intros tr1 s1 c h block l tr2 s u f E1 E2 PR T IU.
  assert (IW1 : Inv s1) by (apply (inv_run tr1 fresh); auto; apply inv_fresh).
  assert (IW : Inv s) by now apply (inv_run _ s1 s IW1 E2).
  pose proof E2 as E2'. cbn [run] in E2. destruct (step s1 (BeginF c h block l)) as [s2|] eqn:S; [|discriminate].
  pose proof S as S0. cbn [step] in S0. destruct block as [|block]; [discriminate|]. destruct l as [|z l0]; [discriminate|]. set (l := z :: l0) in *.
  destruct (fmessages _ _ _) as [ms|] eqn:M; [|discriminate]. unfold begin in S0. destruct (copies s1 c) eqn:C1; [discriminate|]. inversion S0 as [Q2]; clear S0.
  destruct (fmessages_ok A (Datatypes.S block) l ltac:(lia)) as (ms' & M' & C & _); [apply (PR c h (Datatypes.S block) l); apply in_or_app; right; now left|]. rewrite M in M'. inversion M'; subst ms'; clear M'.
  assert (BM : forall v o', fls s1 v = Some o' -> fls s v = Some o') by (intros v o' Q; now apply (keep_run _ s1 s v o' E2')).
  destruct (T u f IU) as (o & ws1 & T1 & T2 & T3).
  assert (W0 : written c ws1 = []).
  { unfold written. destruct (filter (is_by c) ws1) as [|[[d|] y] r] eqn:Q; auto; exfalso.
    - assert (I : In (Some d, y) (filter (is_by c) ws1)) by (rewrite Q; now left). apply filter_In in I. destruct I as (I & Z). unfold is_by in Z. cbn in Z. apply Nat.eqb_eq in Z. subst d.
      destruct (fsource tr1 ltac:(intros d' h' b' l' J; apply (PR d' h' b' l'); apply in_or_app; now left) s1 E1) as (_ & FS & _). destruct (FS o ws1 c y T2 I) as (FS' & _). congruence.
    - assert (I : In (None, y) (filter (is_by c) ws1)) by (rewrite Q; now left). apply filter_In in I. destruct I as (_ & Z). discriminate. }
  assert (MN : FMain (fls s) o c l (concat ms) s2).
  { split.
    - intros v o'. rewrite <- Q2. cbn. apply BM.
    - intros v g I. destruct (T v g I) as (o' & ws & Z1 & Z2 & _). exists o', ws. rewrite <- Q2. cbn. auto.
    - eexists. exists ws1. rewrite <- Q2. cbn. rewrite upd_same. split; [reflexivity|]. split; [exact T2|]. unfold fpend. cbn [flying todo app]. rewrite flat_files. split; [apply (all_files_uid _ _ _ C)|].
      exists []. rewrite W0, app_nil_r. auto. }
  assert (MF : FMain (fls s) o c l (concat ms) s).
  { apply (fmain_run (fls s) o c l (concat ms) tr2 s2); auto. intros x I. split.
    - intros v g o' J B' ->. destruct (T v g J) as (o2 & y & Z1 & _ & Z3). apply BM in Z1. assert (o2 = o') by congruence. subst o2. contradiction.
    - intros ->. contradiction. }
  destruct MF as [_ _ (k & ws & K & HX & _ & rest & EQ & RS)]. exists o, ws, k. split; [now apply BM|]. split; [exact HX|]. split; [exact K|].
  assert (GV : given s o l = from c ws ++ concat (sel (fls s) o (fpend k) ++ rest)).
  { transitivity (concat (sel (fls s) o (concat ms))); [symmetry; exact (all_files_sel _ _ _ (to_o (fls s) o) C)|].
    unfold from. rewrite <- EQ, concat_app. reflexivity. }
  split; [eauto|]. intros FIN. destruct (w_fin _ IW c k K FIN) as (W1 & W2). rewrite GV. rewrite RS by congruence. unfold fpend. rewrite W1, W2. cbn. now rewrite app_nil_r.
Qed.
(** Nothing else gets into a file than what copies were given for it and what the process itself
    writes. *)
Theorem C75_file_sources : forall (tr : list event) s o ws w x, run fresh tr = Some s ->
  (forall d h block l, In (BeginF d h block l) tr -> Forall (fun r => proper A (snd r)) l) ->
  heap s o = Live (File ws) -> In (w, x) ws ->
  match w with
  | Some d => exists h block l u f, In (BeginF d h block l) tr /\ In (u, f) l /\ fls s u = Some o
  | None => In (Own o x) tr
  end.
Proof.
  intros tr s o ws w x E PR H I. destruct (fsource tr PR s E) as (_ & F1 & F2). destruct w as [d|].
  - destruct (F1 o ws d x H I) as (_ & u & (h & block & l & f & J1 & J2) & J3). exists h, block, l, u, f. auto.
  - now apply (F2 o ws).
Qed.
(** So a file that only one copy writes to holds what that copy was given, and nothing else. *)
Corollary C75_file_alone : forall (tr1 : list event) s1 c h block l tr2 s u f o k,
  let tr := tr1 ++ BeginF c h block l :: tr2 in
  run fresh tr1 = Some s1 -> run s1 (BeginF c h block l :: tr2) = Some s ->
  (forall d h' block' l', In (BeginF d h' block' l') tr -> Forall (fun r => proper A (snd r)) l') ->
  ftargets_ok s1 l tr2 -> In (u, f) l -> fls s u = Some o ->
  (forall d h' block' l' u' f', In (BeginF d h' block' l') tr -> In (u', f') l' -> fls s u' = Some o -> d = c) ->
  (forall d, ~ In (Own o d) tr) ->
  copies s c = Some k -> state k = Finished ->
  exists ws, heap s o = Live (File ws) /\ concat (map snd ws) = given s o l.
Proof.
  intros tr1 s1 c h block l tr2 s u f o k tr E1 E2 PR T IU FU OTH NO K FIN.
  destruct (C75_file_in_order tr1 s1 c h block l tr2 s u f E1 E2 PR T IU) as (o' & ws & k' & Q1 & Q2 & Q3 & _ & Q4).
  assert (o' = o) by congruence. subst o'. rewrite K in Q3. inversion Q3; subst k'. exists ws. split; auto. rewrite <- (Q4 FIN). unfold from. f_equal. f_equal.
  assert (E : run fresh tr = Some s) by (unfold tr; rewrite run_app, E1; exact E2).
  assert (ALL : forall w, In w ws -> (match fst w with Some d => d =? c | None => false end) = true).
  { intros [[d|] x] I; pose proof (C75_file_sources tr s o ws _ x E PR Q2 I) as Z; cbn in Z |- *.
    - destruct Z as (h' & bl & l' & u' & f' & J1 & J2 & J3). apply Nat.eqb_eq. now apply (OTH d h' bl l' u' f').
    - now elim (NO x). }
  clear -ALL. induction ws as [|w ws IH]; cbn; auto. rewrite (ALL w) by now left. f_equal. apply IH. intros v I. apply ALL. now right.
Qed.

(** ** Going on *)
Definition going (s : st) : Prop := forall c k, copies s c = Some k -> state k = Active -> flying k = Idle -> todo k <> [].
Lemma going_step (s : st) x s' : going s -> step s x = Some s' -> going s'.
Proof.
  intros G S c0 k' K. destruct x as [o' v|u' o'|o'|o' d|d h block l|d h block l|d|d|d|d|d].
  - cbn in S. destruct (heap s o') eqn:E; try discriminate. destruct v as [|[|]]; try discriminate; inversion S; subst; apply (G c0 k' K).
  - cbn in S. destruct (bufs s u') eqn:E; [discriminate|]. destruct (fls s u'); [discriminate|]. destruct (heap s o') as [|[|]|]; try discriminate; inversion S; subst; apply (G c0 k' K).
  - cbn in S. destruct (heap s o'); try discriminate. inversion S; subst. apply (G c0 k' K).
  - cbn in S. destruct (heap s o') as [|[b|ws]|]; try discriminate; [destruct (_ =? _); [|discriminate]|]; inversion S; subst; apply (G c0 k' K).
  - cbn [step] in S. destruct block; [discriminate|]. destruct l; [discriminate|]. destruct (messages _ _ _) as [ms|]; [|discriminate]. unfold begin in S. destruct (copies s d); [discriminate|]. inversion S; subst.
    cbn in K. unfold upd in K. destruct (c0 =? d); [inversion K; subst; cbn; destruct (map BufMsg ms); discriminate|apply (G c0 k' K)].
  - cbn [step] in S. destruct block; [discriminate|]. destruct l; [discriminate|]. destruct (fmessages _ _ _) as [ms|]; [|discriminate]. unfold begin in S. destruct (copies s d); [discriminate|]. inversion S; subst.
    cbn in K. unfold upd in K. destruct (c0 =? d); [inversion K; subst; cbn; destruct (map FileMsg ms); discriminate|apply (G c0 k' K)].
  - cbn in S. destruct (copies s d) as [[h [|m t] [| | |] [| |]]|]; try discriminate. inversion S; subst.
    cbn in K. unfold upd in K. destruct (c0 =? d); [inversion K; subst; cbn; discriminate|apply (G c0 k' K)].
  - apply take_inv in S. destruct S as (h & t & m & a & w & E & W & ->). destruct m as [ps|ps]; cbn in K; unfold upd in K; destruct (c0 =? d); try (inversion K; subst; cbn; discriminate); [|apply (G c0 k' K)].
    destruct (put_pieces_frame ps (set_wire s h w)) as (_ & _ & _ & Q & _). rewrite Q in K. apply (G c0 k' K).
  - cbn in S. destruct (copies s d) as [[h t [| |[|p r]|] a]|]; try discriminate. destruct (get_file s (f_uid p)) as [[o' ws]|]; inversion S; subst;
      cbn in K; unfold upd in K; (destruct (c0 =? d); [inversion K; subst; cbn; discriminate|apply (G c0 k' K)]).
  - cbn in S. destruct (copies s d) as [[h t [| |[|p r]|] a]|]; try discriminate; inversion S; subst;
      cbn in K; unfold upd in K; (destruct (c0 =? d); [inversion K; subst; cbn; destruct a; try discriminate; destruct t; discriminate|apply (G c0 k' K)]).
  - cbn in S. destruct (copies s d) as [[h t f [| |]]|]; try discriminate. inversion S; subst.
    cbn in K. unfold upd in K. destruct (c0 =? d); [inversion K; subst; cbn; discriminate|apply (G c0 k' K)].
Qed.
Lemma going_run (tr : list event) : forall s s' : st, going s -> run s tr = Some s' -> going s'.
Proof.
  induction tr as [|x tr IH]; intros s s' G E; cbn in E; [now inversion E; subst|]. destruct (step s x) as [s1|] eqn:S; [|discriminate].
  apply (IH s1); auto. now apply (going_step s x).
Qed.
Lemma my_turn h c : forall w1 (s : st) w2, Inv s -> wire s h = w1 ++ c :: w2 -> exists tr s', run s tr = Some s' /\ copies s' c = copies s c /\ wire s' h = c :: w2.
Proof.
  induction w1 as [|d w1 IH]; intros s w2 I W; [exists [], s; auto|].
  assert (J : In d (wire s h)) by (rewrite W; now left). apply (w_wire _ I) in J. destruct J as ([hd t f a] & m & K & CH & FL). cbn in CH, FL. subst hd f.
  assert (N : c <> d). { pose proof (w_once _ I h) as ND. rewrite W in ND. cbn in ND. inversion ND; subst. intros ->. apply H1. apply in_or_app. right. now left. }
  destruct (step s (Take d)) as [s1|] eqn:S; [|cbn in S; rewrite K, W in S; cbn in S; rewrite Nat.eqb_refl in S; destruct m; discriminate].
  assert (Q : copies s1 c = copies s c /\ wire s1 h = w1 ++ c :: w2).
  { pose proof S as S0. apply take_inv in S0. destruct S0 as (h' & t' & m' & a' & w & E & W' & ->). rewrite K in E. inversion E; subst. rewrite W in W'. cbn in W'. inversion W'; subst.
    destruct m' as [ps|ps]; cbn; rewrite (upd_other _ d) by auto; [destruct (put_pieces_frame ps (set_wire s h' (w1 ++ c :: w2))) as (_ & _ & -> & -> & _)|]; cbn; rewrite upd_same; auto. }
  destruct Q as (Q1 & Q2). destruct (IH s1 w2 (inv_step s _ s1 I S) Q2) as (tr & s' & R1 & R2 & R3). exists (Take d :: tr), s'. cbn [run]. rewrite S. split; auto. split; congruence.
Qed.
Lemma finish_writes c h t a : forall ps (s : st), copies s c = Some (mkC h t (Busy ps) a) -> exists tr s' f, run s tr = Some s' /\ copies s' c = Some (mkC h t f a) /\ (f = Busy [] \/ f = Handled).
Proof.
  induction ps as [|p r IH]; intros s K; [exists [], s, (Busy []); auto|].
  destruct (get_file s (f_uid p)) as [[o ws]|] eqn:G.
  - destruct (IH (set_copy (set_heap s o (Live (File (ws ++ [(Some c, f_data p)])))) c (mkC h t (Busy r) a))) as (tr & s' & f & R); [cbn; apply upd_same|].
    exists (Write c :: tr), s', f. cbn [run step]. rewrite K, G. exact R.
  - exists [Write c]. eexists. exists Handled. cbn [run step]. rewrite K, G. split; [reflexivity|]. split; [cbn; apply upd_same|auto].
Qed.
(** A copy that was not cancelled can always get to its end, whatever the others do or leave
    undone (and even if its targets are gone: C22). *)
Theorem C75_can_finish : forall (tr : list event) s c k, run fresh tr = Some s -> copies s c = Some k -> state k = Active ->
  exists tr' s' k', run s tr' = Some s' /\ copies s' c = Some k' /\ state k' = Finished.
Proof.
  intros tr s c k E K ST. assert (I : Inv s) by (apply (inv_run tr fresh); auto; apply inv_fresh).
  assert (G : going s) by (apply (going_run tr fresh); auto; intros c' k' Q; discriminate). clear E tr.
  assert (MAIN : forall n (s : st) k, length (todo k) <= n -> Inv s -> going s -> copies s c = Some k -> state k = Active ->
    exists tr' s' k', run s tr' = Some s' /\ copies s' c = Some k' /\ state k' = Finished); [|now apply (MAIN (length (todo k)) s k)].
  clear. induction n as [n IH] using lt_wf_ind. intros s [h t f a] L I G K ST. cbn in ST, L. subst a.
  assert (BACK : forall (s1 : st) f, Inv s1 -> going s1 -> copies s1 c = Some (mkC h t f Active) -> f = Busy [] \/ f = Handled ->
    exists tr' s' k', run s1 tr' = Some s' /\ copies s' c = Some k' /\ (state k' = Finished \/ (k' = mkC h t Idle Active /\ Inv s' /\ going s'))).
  { intros s1 f1 I1 G1 K1 F1. destruct (step s1 (Reply c)) as [s2|] eqn:S; [|cbn in S; rewrite K1 in S; destruct F1 as [-> | ->]; discriminate].
    exists [Reply c], s2. cbn [run]. rewrite S. pose proof (inv_step _ _ _ I1 S) as I2. pose proof (going_step _ _ _ G1 S) as G2.
    cbn in S. rewrite K1 in S. assert (Q : s2 = set_copy s1 c (mkC h t Idle (match t with [] => Finished | _ => Active end))) by (destruct F1 as [-> | ->]; inversion S; destruct t; reflexivity).
    eexists. split; [reflexivity|]. rewrite Q. cbn. rewrite upd_same. split; [reflexivity|]. destruct t; [left; reflexivity|right]. rewrite <- Q. auto. }
  assert (WIRE : forall (s1 : st) m, Inv s1 -> going s1 -> copies s1 c = Some (mkC h t (OnWire m) Active) ->
    exists tr' s' k', run s1 tr' = Some s' /\ copies s' c = Some k' /\ (state k' = Finished \/ (k' = mkC h t Idle Active /\ Inv s' /\ going s'))).
  { intros s1 m I1 G1 K1. assert (J : In c (wire s1 h)) by (apply (w_wire _ I1); eexists; exists m; split; [exact K1|auto]).
    apply in_split in J. destruct J as (w1 & w2 & W). destruct (my_turn h c w1 s1 w2 I1 W) as (tr1 & s2 & R1 & K2 & W2). rewrite K1 in K2.
    destruct (step s2 (Take c)) as [s3|] eqn:S; [|cbn in S; rewrite K2, W2, Nat.eqb_refl in S; destruct m; discriminate].
    pose proof (inv_run _ _ _ I1 R1) as I2. pose proof (going_run _ _ _ G1 R1) as G2. pose proof (inv_step _ _ _ I2 S) as I3. pose proof (going_step _ _ _ G2 S) as G3.
    assert (K3 : exists f1, copies s3 c = Some (mkC h t f1 Active) /\ (f1 = Handled \/ exists ps, f1 = Busy ps)).
    { apply take_inv in S. destruct S as (h' & t' & m' & a' & w & E' & W' & ->). rewrite K2 in E'. inversion E'; subst. destruct m' as [ps|ps]; cbn; rewrite upd_same; eexists; (split; [reflexivity|]); eauto. }
    destruct K3 as (f1 & K3 & F1).
    assert (PUT : exists tr4 s4 f4, run s3 tr4 = Some s4 /\ copies s4 c = Some (mkC h t f4 Active) /\ (f4 = Busy [] \/ f4 = Handled)).
    { destruct F1 as [-> |(ps & ->)]; [exists [], s3, Handled; auto|now apply (finish_writes c h t Active ps)]. }
    destruct PUT as (tr4 & s4 & f4 & R4 & K4 & F4). destruct (BACK s4 f4 (inv_run _ _ _ I3 R4) (going_run _ _ _ G3 R4) K4 F4) as (tr5 & s5 & k5 & R5 & Z).
    exists (tr1 ++ Take c :: tr4 ++ tr5), s5, k5. split; [|exact Z]. rewrite run_app, R1. cbn [run]. rewrite S, run_app, R4. exact R5. }
  assert (NEXT : forall (s1 : st), Inv s1 -> going s1 -> copies s1 c = Some (mkC h t Idle Active) -> exists tr' s' k', run s1 tr' = Some s' /\ copies s' c = Some k' /\ state k' = Finished).
  { intros s1 I1 G1 K1. destruct t as [|m t]; [now elim (G1 c _ K1 eq_refl eq_refl)|].
    destruct (step s1 (Send c)) as [s2|] eqn:S; [|cbn in S; rewrite K1 in S; discriminate]. pose proof (inv_step _ _ _ I1 S) as I2. pose proof (going_step _ _ _ G1 S) as G2.
    assert (K2 : copies s2 c = Some (mkC h t (OnWire m) Active)) by (cbn in S; rewrite K1 in S; inversion S; subst; cbn; apply upd_same).
    destruct (IH (length t)) with (s := s2) (k := mkC h t (OnWire m) Active) as (tr' & s' & k' & R & Z); auto; try (cbn in *; lia).
    exists (Send c :: tr'), s', k'. cbn [run]. rewrite S. auto. }
  assert (FIN : forall (s1 : st), (exists tr' s' k', run s1 tr' = Some s' /\ copies s' c = Some k' /\ (state k' = Finished \/ (k' = mkC h t Idle Active /\ Inv s' /\ going s'))) ->
    exists tr' s' k', run s1 tr' = Some s' /\ copies s' c = Some k' /\ state k' = Finished).
  { intros s1 (tr1 & s2 & k2 & R & K2 & [Z|(-> & I2 & G2)]); [eauto 6|]. destruct (NEXT s2 I2 G2 K2) as (tr3 & s3 & k3 & R3 & Z). exists (tr1 ++ tr3), s3, k3. split; auto. rewrite run_app, R. exact R3. }
  destruct f as [|m|ps|].
  - now apply NEXT.
  - apply FIN. now apply (WIRE s m).
  - apply FIN. destruct (finish_writes c h t Active ps s K) as (tr4 & s4 & f4 & R4 & K4 & F4). destruct (BACK s4 f4 (inv_run _ _ _ I R4) (going_run _ _ _ G R4) K4 F4) as (tr5 & s5 & k5 & R5 & Z).
    exists (tr4 ++ tr5), s5, k5. split; [|exact Z]. rewrite run_app, R4. exact R5.
  - apply FIN. now apply (BACK s Handled); auto.
Qed.

(** ** Cancelling *)
(** After copy_to was cancelled it sends nothing more. *)
Lemma idle_for_good (tr : list event) c : forall (s s' : st) k, copies s c = Some k -> state k <> Active -> run s tr = Some s' -> ~ In (Send c) tr.
Proof.
  induction tr as [|x tr IH]; intros s s' k K ST E; [intros []|]. cbn in E. destruct (step s x) as [s1|] eqn:S; [|discriminate].
  destruct (copies_stay s x s1 c k S K) as (k1 & K1).
  assert (ST1 : state k1 <> Active /\ x <> Send c).
  { destruct x as [o' v|u' o'|o'|o' d|d h block l|d h block l|d|d|d|d|d].
    - cbn in S. destruct (heap s o') eqn:E'; try discriminate. destruct v as [|[|]]; try discriminate; inversion S; subst; cbn in K1; split; congruence.
    - cbn in S. destruct (bufs s u') eqn:E'; [discriminate|]. destruct (fls s u'); [discriminate|]. destruct (heap s o') as [|[|]|]; try discriminate; inversion S; subst; cbn in K1; split; congruence.
    - cbn in S. destruct (heap s o'); try discriminate. inversion S; subst; cbn in K1; split; congruence.
    - cbn in S. destruct (heap s o') as [|[b|ws]|]; try discriminate; [destruct (_ =? _); [|discriminate]|]; inversion S; subst; cbn in K1; split; congruence.
    - cbn [step] in S. destruct block; [discriminate|]. destruct l; [discriminate|]. destruct (messages _ _ _) as [ms|]; [|discriminate]. unfold begin in S. destruct (copies s d) eqn:E'; [discriminate|]. inversion S; subst.
      cbn in K1. unfold upd in K1. destruct (Nat.eqb_spec c d); split; congruence.
    - cbn [step] in S. destruct block; [discriminate|]. destruct l; [discriminate|]. destruct (fmessages _ _ _) as [ms|]; [|discriminate]. unfold begin in S. destruct (copies s d) eqn:E'; [discriminate|]. inversion S; subst.
      cbn in K1. unfold upd in K1. destruct (Nat.eqb_spec c d); split; congruence.
    - cbn in S. destruct (copies s d) as [[h [|m t] [| | |] [| |]]|] eqn:E'; try discriminate. inversion S; subst.
      assert (N : c <> d) by (intros ->; rewrite K in E'; inversion E'; subst; now elim ST). cbn in K1. rewrite upd_other in K1 by auto. split; congruence.
    - apply take_inv in S. destruct S as (h & t & m & a & w & E' & W & ->). split; [|discriminate]. destruct (Nat.eq_dec c d) as [->|N].
      + rewrite K in E'. inversion E'; subst. destruct m as [ps|ps]; cbn in K1; rewrite upd_same in K1; inversion K1; exact ST.
      + destruct m as [ps|ps]; cbn in K1; rewrite upd_other in K1 by auto; [destruct (put_pieces_frame ps (set_wire s h w)) as (_ & _ & _ & Q & _); rewrite Q in K1; cbn in K1|]; congruence.
    - split; [|discriminate]. cbn in S. destruct (copies s d) as [[h t [| |[|p r]|] a]|] eqn:E'; try discriminate. destruct (get_file s (f_uid p)) as [[o' ws]|]; inversion S; subst;
        cbn in K1; unfold upd in K1; (destruct (Nat.eqb_spec c d) as [->|]; [rewrite K in E'; inversion E'; subst; inversion K1; subst; exact ST|congruence]).
    - split; [|discriminate]. cbn in S. destruct (copies s d) as [[h t [| |[|p r]|] a]|] eqn:E'; try discriminate; inversion S; subst;
        cbn in K1; unfold upd in K1; (destruct (Nat.eqb_spec c d) as [->|]; [rewrite K in E'; inversion E'; subst; inversion K1; subst; cbn in *; destruct a; [now elim ST|discriminate|discriminate]|congruence]).
    - split; [|discriminate]. cbn in S. destruct (copies s d) as [[h t f [| |]]|] eqn:E'; try discriminate. inversion S; subst.
      cbn in K1. unfold upd in K1. destruct (Nat.eqb_spec c d) as [->|]; [inversion K1; discriminate|congruence]. }
  destruct ST1 as (ST1 & N). intros [J|J]; [congruence|]. now apply (IH s1 s' k1 K1 ST1 E).
Qed.
Theorem C75_cancelled : forall (tr : list event) s c s1 tr' s', run fresh tr = Some s -> step s (Cancel c) = Some s1 -> run s1 tr' = Some s' ->
  ~ In (Send c) tr' /\ (forall k, copies s1 c = Some k -> todo k = []).
Proof.
  intros tr s c s1 tr' s' E S E'. cbn in S. destruct (copies s c) as [[h t f [| |]]|] eqn:K; try discriminate. inversion S; subst.
  split.
  - refine (idle_for_good tr' c _ s' (mkC h [] f Cancelled) _ _ E'); [cbn; apply upd_same|discriminate].
  - cbn. rewrite upd_same. intros k Q. now inversion Q.
Qed.
End Props.

(** ** What does not hold *)
(** Two copies into one buffer at the same time: each has returned, and the buffer holds neither
    content. *)
Theorem C75_same_buffer_refuted : forall A (x y : A), x <> y -> exists tr s k0 k1,
  tr = [New 7 (Buffer [x; x]); Ref 3 7; BeginB 0 1 1 [(3, [x; x])]; BeginB 1 2 1 [(3, [y; y])];
        Send 0; Send 1; Take 0; Take 1; Reply 0; Reply 1; Send 1; Take 1; Reply 1; Send 0; Take 0; Reply 0] /\
  run fresh tr = Some s /\ copies s 0 = Some k0 /\ state k0 = Finished /\ copies s 1 = Some k1 /\ state k1 = Finished /\
  heap s 7 = Live (Buffer [y; x]).
Proof.
  intros A x y _. set (tr := [New 7 (Buffer [x; x]); Ref 3 7; BeginB 0 1 1 [(3, [x; x])]; BeginB 1 2 1 [(3, [y; y])];
        Send 0; Send 1; Take 0; Take 1; Reply 0; Reply 1; Send 1; Take 1; Reply 1; Send 0; Take 0; Reply 0]).
  assert (Q : option_map (fun s => (heap s 7, option_map state (copies s 0), option_map state (copies s 1))) (run fresh tr) = Some (Live (Buffer [y; x]), Some Finished, Some Finished)) by (vm_compute; reflexivity).
  destruct (run fresh tr) as [s|] eqn:E; [|discriminate]. cbn [option_map] in Q. destruct (copies s 0) as [k0|] eqn:K0; [|discriminate]. destruct (copies s 1) as [k1|] eqn:K1; [|discriminate]. inversion Q.
  exists tr, s, k0, k1. repeat split; auto.
Qed.
(** Two copies into one file at the same time: the pieces are mixed. *)
Theorem C75_same_file_refuted : forall A (x y : A), x <> y -> exists tr s ws,
  tr = [New 7 (File []); Ref 3 7; BeginF 0 1 1 [(3, [[x; x]])]; BeginF 1 2 1 [(3, [[y; y]])];
        Send 0; Send 1; Take 0; Take 1; Write 0; Write 1; Reply 0; Reply 1; Send 1; Take 1; Write 1; Reply 1; Send 0; Take 0; Write 0; Reply 0] /\
  run fresh tr = Some s /\ heap s 7 = Live (File ws) /\ concat (map snd ws) = [x; y; y; x].
Proof.
  intros A x y _. set (tr := [New 7 (File []); Ref 3 7; BeginF 0 1 1 [(3, [[x; x]])]; BeginF 1 2 1 [(3, [[y; y]])];
        Send 0; Send 1; Take 0; Take 1; Write 0; Write 1; Reply 0; Reply 1; Send 1; Take 1; Write 1; Reply 1; Send 0; Take 0; Write 0; Reply 0]).
  assert (Q : option_map (fun s => heap s 7) (run fresh tr) = Some (Live (File [(Some 0, [x]); (Some 1, [y]); (Some 1, [y]); (Some 0, [x])]))) by (vm_compute; reflexivity).
  destruct (run fresh tr) as [s|] eqn:E; [|discriminate]. cbn [option_map] in Q. inversion Q.
  exists tr, s. eexists. split; [reflexivity|]. split; [exact E|]. split; [eassumption|reflexivity].
Qed.
(** A cancelled copy goes on writing: the message under way is handled after copy_to was left with
    CancelledError (or the time-out of wait_for), also in the middle of a later copy into the same
    file over the same channel. *)
Theorem C75_cancelled_refuted : forall A (x y : A), x <> y -> exists tr s k1 ws,
  tr = [New 7 (File []); Ref 3 7; BeginF 0 1 5 [(3, [[x]; [x]])]; Send 0; Cancel 0; BeginF 1 1 5 [(3, [[y]; [y]])]; Send 1;
        Take 0; Write 0; Take 1; Write 1; Write 0; Write 1; Reply 1] /\
  run fresh tr = Some s /\ copies s 1 = Some k1 /\ state k1 = Finished /\ heap s 7 = Live (File ws) /\ concat (map snd ws) = [x; y; x; y].
Proof.
  intros A x y _. set (tr := [New 7 (File []); Ref 3 7; BeginF 0 1 5 [(3, [[x]; [x]])]; Send 0; Cancel 0; BeginF 1 1 5 [(3, [[y]; [y]])]; Send 1;
        Take 0; Write 0; Take 1; Write 1; Write 0; Write 1; Reply 1]).
  assert (Q : option_map (fun s => (heap s 7, option_map state (copies s 1))) (run fresh tr) = Some (Live (File [(Some 0, [x]); (Some 1, [y]); (Some 0, [x]); (Some 1, [y])]), Some Finished)) by (vm_compute; reflexivity).
  destruct (run fresh tr) as [s|] eqn:E; [|discriminate]. cbn [option_map] in Q. destruct (copies s 1) as [k1|] eqn:K1; [|discriminate]. inversion Q.
  exists tr, s, k1. eexists. split; [reflexivity|]. split; [exact E|]. split; [exact K1|]. split; [auto|]. split; [eassumption|reflexivity].
Qed.
(** ... and over another channel (from another process, say) it can undo a later copy into the same
    buffer. *)
Theorem C75_late_write_refuted : forall A (x y : A), x <> y -> exists tr s k1,
  tr = [New 7 (Buffer [x]); Ref 3 7; BeginB 0 1 5 [(3, [x])]; Send 0; Cancel 0; BeginB 1 2 5 [(3, [y])]; Send 1; Take 1; Reply 1; Take 0] /\
  run fresh tr = Some s /\ copies s 1 = Some k1 /\ state k1 = Finished /\ heap s 7 = Live (Buffer [x]).
Proof.
  intros A x y _. set (tr := [New 7 (Buffer [x]); Ref 3 7; BeginB 0 1 5 [(3, [x])]; Send 0; Cancel 0; BeginB 1 2 5 [(3, [y])]; Send 1; Take 1; Reply 1; Take 0]).
  assert (Q : option_map (fun s => (heap s 7, option_map state (copies s 1))) (run fresh tr) = Some (Live (Buffer [x]), Some Finished)) by (vm_compute; reflexivity).
  destruct (run fresh tr) as [s|] eqn:E; [|discriminate]. cbn [option_map] in Q. destruct (copies s 1) as [k1|] eqn:K1; [|discriminate]. inversion Q.
  exists tr, s, k1. repeat split; auto.
Qed.

Module Demo.
(** Two copies with three targets, one of them cancelled and repeated over the same channel with
    another content. *)
Definition before : list (@event nat) :=
  [New 7 (Buffer [0; 0; 0]); New 8 (Buffer [0; 0]); New 9 (Buffer [5]); Ref 1 7; Ref 2 8; Ref 3 9; Ref 4 7;
   BeginB 0 1 2 [(1, [4; 4; 4]); (2, [6; 6])]; Send 0; Take 0; Reply 0; Send 0; Cancel 0].
Definition after : list (@event nat) :=
  [BeginB 2 5 9 [(3, [1])]; Send 1; Take 0; Send 2; Take 1; Reply 0; Take 2; Reply 1; Send 1; Take 1; Reply 1; Reply 2].
Definition again : @event nat := BeginB 1 1 3 [(4, [7; 8; 9]); (2, [3; 3])].
Example ex_run : option_map (fun s => (heap s 7, heap s 8, heap s 9, option_map state (copies s 1), option_map state (copies s 0))) (run fresh (before ++ again :: after)) =
  Some (Live (Buffer [7; 8; 9]), Live (Buffer [3; 3]), Live (Buffer [1]), Some Finished, Some Cancelled).
Proof. vm_compute. reflexivity. Qed.
(** Copy 1 has its targets, and copy 0, the other one into buffer 7, is cancelled and was over
    channel 1 as well. *)
Definition seen (s : @st nat) := (bufs s 4, heap s 7, bufs s 2, heap s 8, option_map (fun k => (state k, chan k)) (copies s 0)).
Example ex_seen : option_map seen (run fresh before) = Some (Some 7, Live (Buffer [4; 4; 0]), Some 8, Live (Buffer [0; 0]), Some (Cancelled, 1)).
Proof. vm_compute. reflexivity. Qed.
Example ex_targets : exists s1 k, run fresh before = Some s1 /\ targets_ok s1 [(4, [7; 8; 9]); (2, [3; 3])] after /\ copies s1 0 = Some k /\ state k <> Active /\ chan k = 1.
Proof.
  pose proof ex_seen as Q. destruct (run fresh before) as [s1|]; [|discriminate]. cbn [option_map] in Q. unfold seen in Q.
  destruct (copies s1 0) as [k|] eqn:K; [|discriminate]. injection Q as Q1 Q2 Q3 Q4 Q5 Q6. exists s1, k. split; [reflexivity|]. split; [|split; [exact K|split; congruence]].
  intros u b [I|[I|[]]]; inversion I; subst; eexists; eexists; (split; [first [exact Q1|exact Q3]|]); (split; [first [exact Q2|exact Q4]|]); (split; [reflexivity|]);
    intros J; repeat (destruct J as [J|J]; [discriminate|]); destruct J.
Qed.
(** Files: two copies into one file, one into another; a reference to a file that is gone. *)
Definition ftr : list (@event nat) :=
  [New 7 (File []); New 8 (File []); Ref 1 7; Ref 2 8; Own 7 [9; 9]; BeginF 0 1 2 [(1, [[1; 2; 3]]); (2, [[4]])]; BeginF 1 1 2 [(1, [[5]])];
   Send 0; Send 1; Take 0; Write 0; Reply 0; Take 1; Send 0; Take 0; Write 1; Write 0; Reply 1; Write 0; Reply 0].
Example ex_files : option_map (fun s => (heap s 7, heap s 8)) (run fresh ftr) =
  Some (Live (File [(None, [9; 9]); (Some 0, [1; 2]); (Some 1, [5]); (Some 0, [3])]), Live (File [(Some 0, [4])])).
Proof. vm_compute. reflexivity. Qed.
Example ex_proper : forall d h block l, In (BeginF d h block l) ftr -> Forall (fun r => proper nat (snd r)) l.
Proof. intros d h block l J. repeat (destruct J as [J|J]; [inversion J; subst; repeat constructor; discriminate|]). destruct J. Qed.
Example ex_ftargets : exists s1, run fresh (firstn 5 ftr) = Some s1 /\ ftargets_ok s1 [(1, [[1; 2; 3]]); (2, [[4]])] (skipn 6 ftr).
Proof.
  assert (Q : option_map (fun s => (fls s 1, heap s 7, fls s 2, heap s 8)) (run fresh (firstn 5 ftr)) = Some (Some 7, Live (File [(None, [9; 9])]), Some 8, Live (File []))) by (vm_compute; reflexivity).
  destruct (run fresh (firstn 5 ftr)) as [s1|]; [|discriminate]. cbn [option_map] in Q. injection Q as Q1 Q2 Q3 Q4. exists s1. split; [reflexivity|].
  intros u f [I|[I|[]]]; inversion I; subst; eexists; eexists; (split; [eassumption|]); (split; [eassumption|]);
    intros J; repeat (destruct J as [J|J]; [discriminate|]); destruct J.
Qed.
Example ex_gone : option_map (fun s => get_buffer s 1) (run fresh [New 7 (Buffer [0]); Ref 1 7; Gone 7 : @event nat]) = Some None.
Proof. reflexivity. Qed.
End Demo.

Print Assumptions C75_copied.
Print Assumptions C75_copied_alone.
Print Assumptions C75_only_targets.
Print Assumptions C75_reference.
Print Assumptions C75_file_in_order.
Print Assumptions C75_file_sources.
Print Assumptions C75_file_alone.
Print Assumptions C75_can_finish.
Print Assumptions C75_cancelled.
Print Assumptions C75_same_buffer_refuted.
Print Assumptions C75_same_file_refuted.
Print Assumptions C75_cancelled_refuted.
Print Assumptions C75_late_write_refuted.
