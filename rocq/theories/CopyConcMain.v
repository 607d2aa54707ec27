(** * CopyConcMain: the invariants behind C75 *)
From Coq Require Import List Arith Bool Lia.
From Verif Require Import CopyModel CopyProofs CopyConcModel CopyConcProofs.
Import ListNotations.

Section P.
Context {A : Type}.
Notation buf := (buf A).
Notation st := (@st A).
Notation event := (@event A).
Notation copy := (@copy A).

Lemma keep_bufs (s : st) x s' u o : step s x = Some s' -> bufs s u = Some o -> bufs s' u = Some o.
Proof.
  intros S B. destruct x as [o' v|u' o'|o'|o' d|c h block l|c h block l|c|c|c|c|c].
  - cbn in S. destruct (heap s o'); try discriminate. destruct v as [|[|]]; try discriminate; now inversion S; subst.
  - cbn in S. destruct (bufs s u') eqn:E; [discriminate|]. destruct (fls s u'); [discriminate|]. destruct (heap s o') as [|[|]|]; try discriminate; inversion S; subst; cbn; auto.
    rewrite upd_other; auto. congruence.
  - cbn in S. destruct (heap s o'); try discriminate. now inversion S; subst.
  - cbn in S. destruct (heap s o') as [|[b|ws]|]; try discriminate; [destruct (_ =? _); [|discriminate]|]; now inversion S; subst.
  - cbn [step] in S. destruct block; [discriminate|]. destruct l; [discriminate|]. destruct (messages _ _ _); [|discriminate]. unfold begin in S. destruct (copies s c); [discriminate|]. now inversion S; subst.
  - cbn [step] in S. destruct block; [discriminate|]. destruct l; [discriminate|]. destruct (fmessages _ _ _); [|discriminate]. unfold begin in S. destruct (copies s c); [discriminate|]. now inversion S; subst.
  - cbn in S. destruct (copies s c) as [[h [|m t] [| | |] [| |]]|]; try discriminate. now inversion S; subst.
  - apply take_inv in S. destruct S as (h & t & m & a & w & E & W & ->). destruct m as [ps|ps]; [|exact B]. cbn.
    destruct (put_pieces_frame ps (set_wire s h w)) as (-> & _). exact B.
  - cbn in S. destruct (copies s c) as [[h t [| |[|p r]|] a]|]; try discriminate. destruct (get_file s (f_uid p)) as [[o' ws]|]; now inversion S; subst.
  - cbn in S. destruct (copies s c) as [[h t [| |[|p r]|] a]|]; try discriminate; now inversion S; subst.
  - cbn in S. destruct (copies s c) as [[h t f [| |]]|]; try discriminate. now inversion S; subst.
Qed.
Lemma keep_fls (s : st) x s' u o : step s x = Some s' -> fls s u = Some o -> fls s' u = Some o.
Proof.
  intros S B. destruct x as [o' v|u' o'|o'|o' d|c h block l|c h block l|c|c|c|c|c].
  - cbn in S. destruct (heap s o'); try discriminate. destruct v as [|[|]]; try discriminate; now inversion S; subst.
  - cbn in S. destruct (bufs s u') eqn:E; [discriminate|]. destruct (fls s u') eqn:E'; [discriminate|]. destruct (heap s o') as [|[|]|]; try discriminate; inversion S; subst; cbn; auto.
    rewrite upd_other; auto. congruence.
  - cbn in S. destruct (heap s o'); try discriminate. now inversion S; subst.
  - cbn in S. destruct (heap s o') as [|[b|ws]|]; try discriminate; [destruct (_ =? _); [|discriminate]|]; now inversion S; subst.
  - cbn [step] in S. destruct block; [discriminate|]. destruct l; [discriminate|]. destruct (messages _ _ _); [|discriminate]. unfold begin in S. destruct (copies s c); [discriminate|]. now inversion S; subst.
  - cbn [step] in S. destruct block; [discriminate|]. destruct l; [discriminate|]. destruct (fmessages _ _ _); [|discriminate]. unfold begin in S. destruct (copies s c); [discriminate|]. now inversion S; subst.
  - cbn in S. destruct (copies s c) as [[h [|m t] [| | |] [| |]]|]; try discriminate. now inversion S; subst.
  - apply take_inv in S. destruct S as (h & t & m & a & w & E & W & ->). destruct m as [ps|ps]; [|exact B]. cbn.
    destruct (put_pieces_frame ps (set_wire s h w)) as (_ & -> & _). exact B.
  - cbn in S. destruct (copies s c) as [[h t [| |[|p r]|] a]|]; try discriminate. destruct (get_file s (f_uid p)) as [[o' ws]|]; now inversion S; subst.
  - cbn in S. destruct (copies s c) as [[h t [| |[|p r]|] a]|]; try discriminate; now inversion S; subst.
  - cbn in S. destruct (copies s c) as [[h t f [| |]]|]; try discriminate. now inversion S; subst.
Qed.
Lemma keep_run tr : forall (s s' : st) u o, run s tr = Some s' -> (bufs s u = Some o -> bufs s' u = Some o) /\ (fls s u = Some o -> fls s' u = Some o).
Proof.
  induction tr as [|x tr IH]; intros s s' u o E; cbn in E; [inversion E; subst; auto|]. destruct (step s x) as [s1|] eqn:S; [|discriminate].
  destruct (IH s1 s' u o E) as (I1 & I2). split; intros H; [apply I1; now apply (keep_bufs s x)|apply I2; now apply (keep_fls s x)].
Qed.

(** Only [Take] writes to a buffer, except for its owner. *)
Lemma same_buffer (s : st) x s' o y : step s x = Some s' -> (forall c, x <> Take c) -> x <> Gone o -> (forall d, x <> Own o d) ->
  heap s o = Live (Buffer y) -> heap s' o = Live (Buffer y).
Proof.
  intros S NT NG NO H. destruct x as [o' v|u' o'|o'|o' d|c h block l|c h block l|c|c|c|c|c].
  - cbn in S. destruct (heap s o') eqn:E; try discriminate. destruct v as [|[|]]; try discriminate; inversion S; subst; cbn; rewrite upd_other; auto; congruence.
  - cbn in S. destruct (bufs s u') eqn:E; [discriminate|]. destruct (fls s u'); [discriminate|]. destruct (heap s o') as [|[|]|]; try discriminate; now inversion S; subst.
  - cbn in S. destruct (heap s o'); try discriminate. inversion S; subst. cbn. rewrite upd_other; auto; congruence.
  - assert (o <> o') by (intros ->; now elim (NO d)). cbn in S. destruct (heap s o') as [|[b|ws]|]; try discriminate; [destruct (_ =? _); [|discriminate]|]; inversion S; subst; cbn; rewrite upd_other; auto.
  - cbn [step] in S. destruct block; [discriminate|]. destruct l; [discriminate|]. destruct (messages _ _ _); [|discriminate]. unfold begin in S. destruct (copies s c); [discriminate|]. now inversion S; subst.
  - cbn [step] in S. destruct block; [discriminate|]. destruct l; [discriminate|]. destruct (fmessages _ _ _); [|discriminate]. unfold begin in S. destruct (copies s c); [discriminate|]. now inversion S; subst.
  - cbn in S. destruct (copies s c) as [[h [|m t] [| | |] [| |]]|]; try discriminate. now inversion S; subst.
  - now elim (NT c).
  - cbn in S. destruct (copies s c) as [[h t [| |[|p r]|] a]|]; try discriminate. destruct (get_file s (f_uid p)) as [[o' ws]|] eqn:G; inversion S; subst; auto.
    apply get_file_inv in G. destruct G as (_ & G). cbn. rewrite upd_other; auto. congruence.
  - cbn in S. destruct (copies s c) as [[h t [| |[|p r]|] a]|]; try discriminate; now inversion S; subst.
  - cbn in S. destruct (copies s c) as [[h t f [| |]]|]; try discriminate. now inversion S; subst.
Qed.
Lemma keep_len (s : st) x s' o y : step s x = Some s' -> x <> Gone o -> heap s o = Live (Buffer y) ->
  exists y', heap s' o = Live (Buffer y') /\ length y' = length y.
Proof.
  intros S NG H. assert (D : (exists c, x = Take c) \/ (exists d, x = Own o d) \/ ((forall c, x <> Take c) /\ (forall d, x <> Own o d))).
  { destruct x as [o' v|u' o'|o'|o' d|c h block l|c h block l|c|c|c|c|c]; try (right; right; split; discriminate); eauto.
    destruct (Nat.eq_dec o' o) as [->|N]; [eauto|]. right. right. split; [discriminate|]. intros d' Q. inversion Q. congruence. }
  destruct D as [(c & ->)|[(d & ->)|(D1 & D2)]].
  - apply take_inv in S. destruct S as (h & t & m & a & w & E & W & ->). destruct m as [ps|ps]; [|eauto]. cbn.
    destruct (put_pieces_frame ps (set_wire s h w)) as (_ & _ & _ & _ & F & _). now apply F.
  - cbn in S. rewrite H in S. destruct (Nat.eqb_spec (length d) (length y)); [|discriminate]. inversion S; subst. cbn. rewrite upd_same. eauto.
  - exists y. split; auto. now apply (same_buffer s x).
Qed.

(** What a step does to the copies. *)
Lemma copies_step (s : st) x s' c k' : step s x = Some s' -> copies s' c = Some k' ->
  (exists k, copies s c = Some k /\ chan k' = chan k /\ incl (bpend k') (bpend k) /\
     (x <> Take c -> x <> Cancel c -> bpend k' = bpend k /\ (state k' = Cancelled -> state k = Cancelled)) /\ (state k = Cancelled -> state k' = Cancelled)) \/
  (copies s c = None /\
    ((exists h block l ms, x = BeginB c h block l /\ 0 < block /\ messages A block l = Some ms /\ chan k' = h /\ bpend k' = concat ms /\ state k' <> Cancelled) \/
     (exists h block l ms, x = BeginF c h block l /\ fmessages A block l = Some ms /\ chan k' = h /\ bpend k' = []))).
Proof.
  intros S K. assert (SAME : copies s c = Some k' -> exists k, copies s c = Some k /\ chan k' = chan k /\ incl (bpend k') (bpend k) /\
     (x <> Take c -> x <> Cancel c -> bpend k' = bpend k /\ (state k' = Cancelled -> state k = Cancelled)) /\ (state k = Cancelled -> state k' = Cancelled)).
  { intros Q. exists k'. repeat split; auto. apply incl_refl. }
  destruct x as [o' v|u' o'|o'|o' d|d h block l|d h block l|d|d|d|d|d].
  - cbn in S. destruct (heap s o') eqn:E; try discriminate. destruct v as [|[|]]; try discriminate; inversion S; subst; auto.
  - cbn in S. destruct (bufs s u') eqn:E; [discriminate|]. destruct (fls s u'); [discriminate|]. destruct (heap s o') as [|[|]|]; try discriminate; inversion S; subst; auto.
  - cbn in S. destruct (heap s o'); try discriminate. inversion S; subst. auto.
  - cbn in S. destruct (heap s o') as [|[b|ws]|]; try discriminate; [destruct (_ =? _); [|discriminate]|]; inversion S; subst; auto.
  - cbn [step] in S. destruct block as [|block]; [discriminate|]. destruct l as [|z l]; [discriminate|]. destruct (messages _ _ _) as [ms|] eqn:M; [|discriminate]. unfold begin in S. destruct (copies s d) eqn:E; [discriminate|].
    inversion S; subst. cbn in K. unfold upd in K. destruct (Nat.eqb_spec c d) as [->|]; auto. right. split; auto. left. inversion K; subst. eexists h, _, _, ms.
    split; auto. split; [lia|]. split; auto. split; auto. unfold bpend. cbn. split; [apply flat_bufs|]. destruct (map BufMsg ms); discriminate.
  - cbn [step] in S. destruct block as [|block]; [discriminate|]. destruct l as [|z l]; [discriminate|]. destruct (fmessages _ _ _) as [ms|] eqn:M; [|discriminate]. unfold begin in S. destruct (copies s d) eqn:E; [discriminate|].
    inversion S; subst. cbn in K. unfold upd in K. destruct (Nat.eqb_spec c d) as [->|]; auto. right. split; auto. right. inversion K; subst. eexists h, _, _, ms.
    split; auto. split; auto. split; auto. unfold bpend. cbn. apply flat_files_b.
  - cbn in S. destruct (copies s d) as [[h [|m t] [| | |] [| |]]|] eqn:E; try discriminate. inversion S; subst. cbn in K. unfold upd in K. destruct (Nat.eqb_spec c d) as [->|]; auto.
    inversion K; subst. left. eexists. split; [exact E|]. cbn. repeat split; auto; try discriminate. apply incl_refl.
  - apply take_inv in S. destruct S as (h & t & m & a & w & E & W & ->). left.
    assert (E' : (c <> d /\ copies s c = Some k') \/ (c = d /\ exists f, k' = mkC h t f a /\ forall m, f <> OnWire m)).
    { destruct (Nat.eq_dec c d) as [->|N].
      - right. split; auto. destruct m as [ps|ps]; cbn in K; rewrite upd_same in K; inversion K; eexists; split; try reflexivity; discriminate.
      - left. split; auto. destruct m as [ps|ps]; cbn in K; rewrite upd_other in K by auto; auto. destruct (put_pieces_frame ps (set_wire s h w)) as (_ & _ & _ & Q & _). now rewrite Q in K. }
    destruct E' as [(N & Q)|(-> & f & -> & NF)]; [auto|]. eexists. split; [exact E|]. cbn. repeat split; auto; try congruence.
    unfold bpend. cbn. destruct f; try (now intros p I; apply in_or_app; right). now elim (NF m0).
  - cbn in S. destruct (copies s d) as [[h t [| |[|p r]|] a]|] eqn:E; try discriminate. left. destruct (Nat.eq_dec c d) as [->|N].
    + eexists. split; [exact E|]. destruct (get_file s (f_uid p)) as [[o' ws]|]; inversion S; subst; cbn in K; rewrite upd_same in K; inversion K; cbn; repeat split; auto; apply incl_refl.
    + apply SAME. destruct (get_file s (f_uid p)) as [[o' ws]|]; inversion S; subst; cbn in K; rewrite upd_other in K by auto; auto.
  - cbn in S. left. destruct (Nat.eq_dec c d) as [->|N].
    + destruct (copies s d) as [[h t [| |[|p r]|] a]|] eqn:E; try discriminate; eexists; (split; [reflexivity|]); inversion S; subst; cbn in K; rewrite upd_same in K; inversion K; cbn;
        repeat split; auto; try apply incl_refl; destruct a; auto; destruct t; discriminate.
    + apply SAME. destruct (copies s d) as [[h t [| |[|p r]|] a]|] eqn:E; try discriminate; inversion S; subst; cbn in K; rewrite upd_other in K by auto; auto.
  - cbn in S. destruct (copies s d) as [[h t f [| |]]|] eqn:E; try discriminate. inversion S; subst. cbn in K. unfold upd in K. destruct (Nat.eqb_spec c d) as [->|]; auto.
    inversion K; subst. left. eexists. split; [exact E|]. cbn. repeat split; auto; try congruence. unfold bpend. cbn. rewrite app_nil_r. intros p I. apply in_or_app. now left.
Qed.
Lemma copies_stay (s : st) x s' c k : step s x = Some s' -> copies s c = Some k -> exists k', copies s' c = Some k'.
Proof.
  intros S K. assert (U : forall d (k0 : copy), exists k', upd (copies s) d (Some k0) c = Some k') by (intros d k0; unfold upd; destruct (c =? d); eauto).
  destruct x as [o' v|u' o'|o'|o' d|d h block l|d h block l|d|d|d|d|d].
  - cbn in S. destruct (heap s o') eqn:E; try discriminate. destruct v as [|[|]]; try discriminate; inversion S; subst; eauto.
  - cbn in S. destruct (bufs s u') eqn:E; [discriminate|]. destruct (fls s u'); [discriminate|]. destruct (heap s o') as [|[|]|]; try discriminate; inversion S; subst; eauto.
  - cbn in S. destruct (heap s o'); try discriminate. inversion S; subst. eauto.
  - cbn in S. destruct (heap s o') as [|[b|ws]|]; try discriminate; [destruct (_ =? _); [|discriminate]|]; inversion S; subst; eauto.
  - cbn [step] in S. destruct block as [|block]; [discriminate|]. destruct l as [|z l]; [discriminate|]. destruct (messages _ _ _) as [ms|] eqn:M; [|discriminate]. unfold begin in S. destruct (copies s d) eqn:E; [discriminate|]. inversion S; subst. apply U.
  - cbn [step] in S. destruct block as [|block]; [discriminate|]. destruct l as [|z l]; [discriminate|]. destruct (fmessages _ _ _) as [ms|] eqn:M; [|discriminate]. unfold begin in S. destruct (copies s d) eqn:E; [discriminate|]. inversion S; subst. apply U.
  - cbn in S. destruct (copies s d) as [[h [|m t] [| | |] [| |]]|] eqn:E; try discriminate. inversion S; subst. apply U.
  - apply take_inv in S. destruct S as (h & t & m & a & w & E & W & ->). destruct m as [ps|ps]; [|apply U]. cbn.
    destruct (put_pieces_frame ps (set_wire s h w)) as (_ & _ & _ & Q & _). rewrite Q. apply U.
  - cbn in S. destruct (copies s d) as [[h t [| |[|p r]|] a]|] eqn:E; try discriminate. destruct (get_file s (f_uid p)) as [[o' ws]|]; inversion S; subst; apply U.
  - cbn in S. destruct (copies s d) as [[h t [| |[|p r]|] a]|] eqn:E; try discriminate; inversion S; subst; apply U.
  - cbn in S. destruct (copies s d) as [[h t f [| |]]|] eqn:E; try discriminate. inversion S; subst. apply U.
Qed.

(** Pieces come from the copies that were begun. *)
Lemma source tr : forall s : st, run fresh tr = Some s -> forall c k p, copies s c = Some k -> In p (bpend k) ->
  exists block l b, In (BeginB c (chan k) block l) tr /\ In (p_uid p, b) l /\ correct p b.
Proof.
  induction tr as [|x tr IH] using rev_ind; intros s E c k' p K I; [cbn in E; inversion E; subst; discriminate|].
  rewrite run_app in E. destruct (run fresh tr) as [s0|] eqn:E0; [|discriminate]. cbn [run] in E. destruct (step s0 x) as [s1|] eqn:S; [|discriminate]. inversion E; subst s1.
  destruct (copies_step s0 x s c k' S K) as [(k & K0 & CH & IN & _)|(_ & [(h & block & l & ms & -> & BP & M & CH & BQ & _)|(h & block & l & ms & -> & M & CH & BQ)])].
  - destruct (IH s0 eq_refl c k p K0 (IN p I)) as (block & l & b & J1 & J2 & J3). exists block, l, b. rewrite CH. split; auto. apply in_or_app. auto.
  - rewrite BQ in I. destruct (messages_ok A block l BP) as (ms' & M' & C). rewrite M in M'. inversion M'; subst ms'.
    destruct (proj1 (all_covers_correct l _ C) p I) as (b & J1 & J2). exists block, l, b. rewrite CH. split; auto. apply in_or_app. right. now left.
  - rewrite BQ in I. destruct I.
Qed.

(** ** The main invariant, for buffers *)
Section Buffers.
Context (B : nat -> option nat) (o : nat) (b : buf) (c h : nat) (l : list (nat * buf)).
Definition names (p : piece A) : Prop := B (p_uid p) = Some o.
Definition okc (s : st) (d : nat) : Prop := forall k p, copies s d = Some k -> In p (bpend k) -> names p -> correct p b.
Definition stale (s : st) (d : nat) : Prop := exists k m, copies s d = Some k /\ d <> c /\ chan k = h /\ todo k = [] /\ state k <> Active /\ flying k = OnWire m /\
  (forall w1 w2, wire s h = w1 ++ c :: w2 -> In d w1).
Definition cov (k : copy) (i : nat) : Prop := exists p, In p (bpend k) /\ names p /\ inside p i.
Record Main (s : st) : Prop := {
  m_sub : forall u o', bufs s u = Some o' -> B u = Some o';
  m_tgt : forall u b', In (u, b') l -> exists o' x', bufs s u = Some o' /\ heap s o' = Live (Buffer x') /\ length x' = length b';
  m_rest : exists k x, copies s c = Some k /\ chan k = h /\ heap s o = Live (Buffer x) /\ length x = length b /\
    (forall p, In p (bpend k) -> exists b', In (p_uid p, b') l /\ correct p b') /\
    (state k = Cancelled \/
     ((forall i, i < length b -> cov k i) /\ (forall d, okc s d \/ stale s d)) \/
     ((forall i, i < length b -> nth_error x i = nth_error b i \/ cov k i) /\ (forall d, okc s d))) }.

Definition allowed (x : event) : Prop :=
  (forall u b' o', In (u, b') l -> B u = Some o' -> x <> Gone o') /\ x <> Gone o /\ (forall d, x <> Own o d) /\
  (forall d h' block l' u b', x = BeginB d h' block l' -> In (u, b') l' -> B u = Some o -> b' = b).

Lemma okc_step s x s' d : allowed x -> step s x = Some s' -> okc s d -> okc s' d.
Proof.
  intros (_ & _ & _ & AB) S OK k' p K I N.
  destruct (copies_step s x s' d k' S K) as [(k & K0 & CH & IN & _)|(_ & [(h' & block & l' & ms & -> & BP & M & CH & BQ & _)|(h' & block & l' & ms & -> & M & CH & BQ)])].
  - apply (OK k p); auto.
  - rewrite BQ in I. destruct (messages_ok A block l' BP) as (ms' & M' & C). rewrite M in M'. inversion M'; subst ms'.
    destruct (proj1 (all_covers_correct l' _ C) p I) as (b' & J1 & J2). now rewrite <- (AB d h' block l' (p_uid p) b' eq_refl J1 N).
  - rewrite BQ in I. destruct I.
Qed.
Lemma split_last {X} (w : list X) c0 w1 w2 : ~ In c0 w -> w ++ [c0] = w1 ++ c0 :: w2 -> w1 = w /\ w2 = [].
Proof.
  revert w1. induction w as [|y w IH]; intros [|z w1] N E; cbn in *.
  - inversion E. auto.
  - inversion E. destruct w1; discriminate.
  - inversion E; subst. exfalso. auto.
  - inversion E; subst. destruct (IH w1) as (-> & ->); auto.
Qed.
Lemma stale_step s x s' d : Inv s -> allowed x -> x <> Take c -> step s x = Some s' -> stale s d -> okc s' d \/ stale s' d.
Proof.
  intros IW AL NT S (k & m & K & DC & CH & TD & ST & FL & OR).
  destruct k as [hk tk fk ak]. cbn in CH, TD, ST, FL. subst hk tk fk.
  assert (KEEP : copies s' d = copies s d -> wire s' h = wire s h -> okc s' d \/ stale s' d).
  { intros Q1 Q2. right. eexists. exists m. rewrite Q1, Q2. split; [exact K|]. cbn. repeat split; auto. }
  destruct x as [o' v|u' o'|o'|o' e|e h' block l'|e h' block l'|e|e|e|e|e].
  - cbn in S. destruct (heap s o') eqn:E; try discriminate. destruct v as [|[|]]; try discriminate; inversion S; subst; auto.
  - cbn in S. destruct (bufs s u') eqn:E; [discriminate|]. destruct (fls s u'); [discriminate|]. destruct (heap s o') as [|[|]|]; try discriminate; inversion S; subst; auto.
  - cbn in S. destruct (heap s o'); try discriminate. inversion S; subst. auto.
  - cbn in S. destruct (heap s o') as [|[b'|ws]|]; try discriminate; [destruct (_ =? _); [|discriminate]|]; inversion S; subst; auto.
  - cbn [step] in S. destruct block as [|block]; [discriminate|]. destruct l' as [|z l']; [discriminate|]. destruct (messages _ _ _) as [ms|] eqn:M; [|discriminate]. unfold begin in S. destruct (copies s e) eqn:E; [discriminate|].
    inversion S; subst. apply KEEP; auto. cbn. apply upd_other. congruence.
  - cbn [step] in S. destruct block as [|block]; [discriminate|]. destruct l' as [|z l']; [discriminate|]. destruct (fmessages _ _ _) as [ms|] eqn:M; [|discriminate]. unfold begin in S. destruct (copies s e) eqn:E; [discriminate|].
    inversion S; subst. apply KEEP; auto. cbn. apply upd_other. congruence.
  - cbn in S. destruct (copies s e) as [[he [|me te] [| | |] [| |]]|] eqn:E; try discriminate. inversion S; subst; clear S.
    assert (d <> e) by congruence. right. eexists. exists m. cbn. rewrite (upd_other _ e) by auto. split; [exact K|]. cbn. repeat split; auto.
    intros w1 w2. unfold upd. destruct (Nat.eqb_spec h he) as [<-|N]; [|apply OR].
    assert (ID : In d (wire s h)) by (apply (w_wire _ IW); eexists; exists m; split; [exact K|auto]).
    destruct (Nat.eq_dec e c) as [->|NE].
    + intros Q. destruct (split_last (wire s h) c w1 w2) as (-> & _); auto. intros J. apply (w_wire _ IW) in J. destruct J as (k' & m' & Q1 & _ & Q2). rewrite E in Q1. inversion Q1; subst. discriminate.
    + intros Q. destruct (in_split c (wire s h)) as (a1 & a2 & Q'); [|].
      * assert (J : In c (wire s h ++ [e])) by (rewrite Q; apply in_or_app; right; now left). apply in_app_or in J. destruct J as [J|[J|[]]]; [auto|congruence].
      * assert (w1 = a1).
        { pose proof (w_once _ IW h) as ND. rewrite Q' in ND. assert (NN : ~ In c a1 /\ ~ In c a2) by (apply NoDup_remove_2 in ND; rewrite in_app_iff in ND; tauto). destruct NN as (NN & _).
          assert (NW : ~ In c w1).
          { pose proof (w_once _ IW h) as ND'. assert (NoDup (wire s h ++ [e])).
            { clear -ND' E IW. assert (NI : ~ In e (wire s h)) by (intros J; apply (w_wire _ IW) in J; destruct J as (k' & m' & Q1 & _ & Q2); rewrite E in Q1; inversion Q1; subst; discriminate).
              induction (wire s h) as [|y w IH]; cbn; [repeat constructor; auto|]. inversion ND'; subst. constructor; [rewrite in_app_iff; cbn; intros [J|[->|[]]]; [auto|apply NI; now left]|]. apply IH; auto. intros J. apply NI. now right. }
            rewrite Q in H0. apply NoDup_remove_2 in H0. rewrite in_app_iff in H0. tauto. }
          rewrite Q' in Q. rewrite <- app_assoc in Q. cbn in Q. clear -Q NN NW. revert w1 NW Q. induction a1 as [|y a1 IH]; intros [|z w1] NW Q; cbn in *; auto.
          - inversion Q; subst. exfalso. auto.
          - inversion Q; subst. exfalso. auto.
          - inversion Q; subst. f_equal. apply IH; auto. }
        subst a1. now apply (OR w1 a2).
  - assert (e <> c) by congruence. apply take_inv in S. destruct S as (he & te & me & ae & w & E & W & ->).
    destruct (Nat.eq_dec d e) as [->|N].
    + left. intros k' p K' I. exfalso. rewrite K in E. inversion E; subst.
      assert (Q : todo k' = [] /\ forall m, flying k' <> OnWire m).
      { destruct me as [ps|ps]; cbn in K'; rewrite upd_same in K'; inversion K'; split; try reflexivity; discriminate. }
      destruct Q as (Q1 & NF). unfold bpend in I. rewrite Q1 in I. destruct (flying k') as [|mm| |]; try destruct I. now elim (NF mm).
    + right. eexists. exists m.
      assert (Q : copies match me with BufMsg ps => set_copy (put_pieces (set_wire s he w) ps) e (mkC he te Handled ae) | FileMsg ps => set_copy (set_wire s he w) e (mkC he te (Busy ps) ae) end d = copies s d /\
        wire match me with BufMsg ps => set_copy (put_pieces (set_wire s he w) ps) e (mkC he te Handled ae) | FileMsg ps => set_copy (set_wire s he w) e (mkC he te (Busy ps) ae) end = upd (wire s) he w).
      { destruct me as [ps|ps]; cbn; [|rewrite upd_other; auto]. destruct (put_pieces_frame ps (set_wire s he w)) as (_ & _ & Q1 & Q2 & _). rewrite Q1, Q2, upd_other; auto. }
      destruct Q as (Q1 & Q2). rewrite Q1, Q2. split; [exact K|]. cbn. repeat split; auto.
      intros w1 w2. unfold upd. destruct (Nat.eqb_spec h he) as [<-|N']; [|apply OR].
      intros ->. specialize (OR (e :: w1) w2 W). destruct OR as [->|OR]; [contradiction|auto].
  - assert (d <> e). { intros ->. cbn in S. rewrite K in S. discriminate. }
    cbn in S. destruct (copies s e) as [[he te [| |[|p r]|] ae]|] eqn:E; try discriminate. destruct (get_file s (f_uid p)) as [[o' ws]|]; inversion S; subst; apply KEEP; cbn; auto; apply upd_other; auto.
  - assert (d <> e). { intros ->. cbn in S. rewrite K in S. discriminate. }
    cbn in S. destruct (copies s e) as [[he te [| |[|p r]|] ae]|] eqn:E; try discriminate; inversion S; subst; apply KEEP; cbn; auto; apply upd_other; auto.
  - assert (d <> e). { intros ->. cbn in S. rewrite K in S. destruct ak; try discriminate. now elim ST. }
    cbn in S. destruct (copies s e) as [[he te fe [| |]]|] eqn:E; try discriminate. inversion S; subst. apply KEEP; cbn; auto. apply upd_other; auto.
Qed.

Lemma main_step s x s' : Inv s -> Main s -> allowed x -> (forall u o', bufs s' u = Some o' -> B u = Some o') -> step s x = Some s' -> Main s'.
Proof.
  intros IW [M1 M2 (k & y & K & CH & HO & LO & PC & PH)] AL SUB S. pose proof AL as (AG & AO & AW & AB). split.
  - exact SUB.
  - intros u b' I. destruct (M2 u b' I) as (o' & x' & Q1 & Q2 & Q3). exists o'. destruct (keep_len s x s' o' x' S) as (x2 & Q4 & Q5); auto; [apply (AG u b' o' I); auto|].
    exists x2. split; [now apply (keep_bufs s x)|]. split; auto. congruence.
  - destruct (copies_stay s x s' c k S K) as (k' & K'). exists k'.
    destruct (copies_step s x s' c k' S K') as [(k0 & K0 & CH' & IN & EQ & CAN)|(K0 & _)]; [|congruence]. rewrite K in K0. inversion K0; subst k0; clear K0.
    assert (PC' : forall p, In p (bpend k') -> exists b', In (p_uid p, b') l /\ correct p b') by (intros p I; apply PC; auto).
    destruct (keep_len s x s' o y S AO HO) as (y' & HO' & LO').
    destruct PH as [PH|PH]; [exists y'; repeat split; auto; congruence|].
    assert (CASES : (exists d, x = Take d) \/ (forall d, x <> Take d)) by (destruct x; try (right; discriminate); eauto).
    destruct CASES as [(d & ->)|NT].
    + destruct (Nat.eq_dec d c) as [->|ND].
      * assert (OK : (forall i, i < length b -> nth_error y i = nth_error b i \/ cov k i) /\ (forall d, okc s d)).
        { destruct PH as [(P1 & P2)|PH]; [|exact PH]. split; [intros i Hi; right; auto|]. intros d. destruct (P2 d) as [P|(k0 & m & Q1 & Q2 & Q3 & _ & _ & _ & Q4)]; auto.
          apply take_inv in S. destruct S as (hk & t & m' & a & w & E & W & _). rewrite K in E. inversion E; subst k. cbn in CH. rewrite CH in W. destruct (Q4 [] w W). }
        destruct OK as (P1 & P2). assert (OK' : forall d, okc s' d) by (intros d; apply (okc_step s (Take c)); auto).
        apply take_inv in S. destruct S as (hk & t & m & a & w & E & W & ->). rewrite K in E. inversion E; subst k. cbn in CH. subst hk. destruct m as [ps|ps].
        -- cbn in K'. rewrite upd_same in K'. inversion K'; subst k'. cbn [chan state bpend flying todo app] in *.
           destruct (put_pieces_all ps b o (set_wire s h w) y) as (y2 & Q1 & Q2 & Q3); auto.
           ++ intros p I N. apply (P2 c _ p K); [unfold bpend; cbn; apply in_or_app; auto|]. apply M1. exact N.
           ++ intros p I. destruct (PC p) as (b' & J1 & J2); [unfold bpend; cbn; apply in_or_app; auto|]. destruct (M2 _ b' J1) as (o' & x' & J3 & J4 & J5). exists b', o', x'. auto.
           ++ exists y2. split; [cbn; apply upd_same|]. split; [reflexivity|]. split; [exact Q1|]. split; [exact Q2|]. split; [exact PC'|]. right. right. split; [|exact OK'].
              intros i Hi. destruct (P1 i Hi) as [Z|(p & I & N & IS)]; [left; apply Q3; auto|]. unfold bpend in I. cbn in I. apply in_app_or in I. destruct I as [I|I].
              ** left. apply Q3. right. exists p. split; auto. split; auto. destruct (PC p) as (b' & J1 & J2); [unfold bpend; cbn; apply in_or_app; auto|]. destruct (M2 _ b' J1) as (o' & x' & J3 & J4 & J5).
                 cbn. rewrite J3. apply M1 in J3. unfold names in N. congruence.
              ** right. exists p. auto.
        -- cbn in K'. rewrite upd_same in K'. inversion K'; subst k'. exists y. split; [cbn; apply upd_same|]. cbn [chan state] in *. split; [reflexivity|]. split; [exact HO|]. split; [exact LO|]. split; [exact PC'|]. right. right. split; auto.
      * destruct EQ as (EQ & EC); [congruence|discriminate|]. assert (TK : @Take A d <> Take c) by congruence.
        destruct PH as [(P1 & P2)|(P1 & P2)].
        -- exists y'. split; auto. split; [congruence|]. split; auto. split; [congruence|]. split; auto. right. left. split.
           ++ intros i Hi. unfold cov. rewrite EQ. exact (P1 i Hi).
           ++ intros d'. destruct (P2 d') as [P|P]; [left; now apply (okc_step s (Take d))|now apply (stale_step s (Take d))].
        -- assert (KP : exists y2, heap s' o = Live (Buffer y2) /\ length y2 = length b /\ forall i, nth_error y i = nth_error b i -> nth_error y2 i = nth_error b i).
           { apply take_inv in S. destruct S as (hk & t & m & a & w & E & W & ->). destruct m as [ps|ps]; [|eauto]. cbn.
             apply put_pieces_keep with (x := y); auto. cbn. intros p I N. apply (P2 d _ p E); [unfold bpend; cbn; apply in_or_app; auto|]. apply M1. exact N. }
           destruct KP as (y2 & Q1 & Q2 & Q3). exists y2. split; auto. split; [congruence|]. split; auto. split; auto. split; auto. right. right. split.
           ++ intros i Hi. unfold cov. rewrite EQ. destruct (P1 i Hi) as [Z|Z]; [left; auto|right; exact Z].
           ++ intros d'. apply (okc_step s (Take d)); auto.
    + assert (HS : heap s' o = Live (Buffer y)) by (apply (same_buffer s x); auto).
      assert (CC : state k' = Cancelled \/ (bpend k' = bpend k)).
      { assert (D : x = Cancel c \/ x <> Cancel c) by (destruct x; try (right; discriminate); destruct (Nat.eq_dec c0 c) as [->|]; [auto|right; congruence]).
        destruct D as [->|D]; [left|right; now apply EQ]. cbn in S. rewrite K in S. destruct k as [hk t f [| |]]; try discriminate. inversion S; subst. cbn in K'. rewrite upd_same in K'. now inversion K'. }
      exists y. split; auto. split; [congruence|]. split; auto. split; [congruence|]. split; auto. destruct CC as [CC|CC]; [auto|]. right. destruct PH as [(P1 & P2)|(P1 & P2)]; [left|right]; split.
      * intros i Hi. unfold cov. rewrite CC. exact (P1 i Hi).
      * intros d. destruct (P2 d) as [P|P]; [left; now apply (okc_step s x)|apply (stale_step s x); auto].
      * intros i Hi. unfold cov. rewrite CC. destruct (P1 i Hi) as [Z|Z]; [left; auto|right; exact Z].
      * intros d. apply (okc_step s x); auto.
Qed.
Lemma main_run tr : forall s s', Inv s -> Main s -> (forall x, In x tr -> allowed x) -> run s tr = Some s' -> bufs s' = B -> Main s'.
Proof.
  induction tr as [|x tr IH]; intros s s' I M AL E EB; cbn in E; [now inversion E; subst|]. destruct (step s x) as [s1|] eqn:S; [|discriminate].
  apply (IH s1); auto; [now apply (inv_step s x)| |intros z Z; apply AL; now right]. apply (main_step s x); auto; [apply AL; now left|].
  intros u o' Q. rewrite <- EB. now apply (keep_run tr s1 s').
Qed.
End Buffers.
End P.
