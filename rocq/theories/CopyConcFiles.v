(** * CopyConcFiles: the invariants behind C75, for files *)
From Coq Require Import List Arith Bool Lia.
From Verif Require Import CopyModel CopyProofs CopyConcModel CopyConcProofs CopyConcMain.
Import ListNotations.

Section P.
Context {A : Type}.
Notation buf := (buf A).
Notation st := (@st A).
Notation event := (@event A).
Notation copy := (@copy A).

(** What a step does to the pieces for files. *)
Lemma fcopies_step (s : st) x s' c k' : step s x = Some s' -> copies s' c = Some k' ->
  (exists k, copies s c = Some k /\ incl (fpend k') (fpend k) /\
     (x <> Write c -> x <> Cancel c -> fpend k' = fpend k /\ (state k' = Cancelled -> state k = Cancelled)) /\
     (x = Cancel c -> exists rest, fpend k = fpend k' ++ rest) /\ (state k = Cancelled -> state k' = Cancelled)) \/
  (copies s c = None /\
    ((exists h block l ms, x = BeginF c h block l /\ 0 < block /\ fmessages A block l = Some ms /\ fpend k' = concat ms /\ state k' <> Cancelled) \/
     (exists h block l, x = BeginB c h block l /\ fpend k' = []))).
Proof.
  intros S K. assert (SAME : copies s c = Some k' -> exists k, copies s c = Some k /\ incl (fpend k') (fpend k) /\
     (x <> Write c -> x <> Cancel c -> fpend k' = fpend k /\ (state k' = Cancelled -> state k = Cancelled)) /\
     (x = Cancel c -> exists rest, fpend k = fpend k' ++ rest) /\ (state k = Cancelled -> state k' = Cancelled)).
  { intros Q. exists k'. repeat split; auto. apply incl_refl. intros _. exists []. now rewrite app_nil_r. }
  assert (LIFT : forall k : copy, copies s c = Some k -> fpend k' = fpend k -> (state k' = Cancelled <-> state k = Cancelled) -> exists k, copies s c = Some k /\ incl (fpend k') (fpend k) /\
     (x <> Write c -> x <> Cancel c -> fpend k' = fpend k /\ (state k' = Cancelled -> state k = Cancelled)) /\
     (x = Cancel c -> exists rest, fpend k = fpend k' ++ rest) /\ (state k = Cancelled -> state k' = Cancelled)).
  { intros k Q E H. exists k. rewrite E. split; auto. split; [apply incl_refl|]. split; [tauto|]. split; [|tauto]. intros _. exists []. now rewrite app_nil_r. }
  destruct x as [o' v|u' o'|o'|o' d|d h block l|d h block l|d|d|d|d|d].
  - cbn in S. destruct (heap s o') eqn:E; try discriminate. destruct v as [|[|]]; try discriminate; inversion S; subst; auto.
  - cbn in S. destruct (bufs s u') eqn:E; [discriminate|]. destruct (fls s u'); [discriminate|]. destruct (heap s o') as [|[|]|]; try discriminate; inversion S; subst; auto.
  - cbn in S. destruct (heap s o'); try discriminate. inversion S; subst. auto.
  - cbn in S. destruct (heap s o') as [|[b|ws]|]; try discriminate; [destruct (_ =? _); [|discriminate]|]; inversion S; subst; auto.
  - cbn [step] in S. destruct block as [|block]; [discriminate|]. destruct l as [|z l]; [discriminate|]. destruct (messages _ _ _) as [ms|] eqn:M; [|discriminate]. unfold begin in S. destruct (copies s d) eqn:E; [discriminate|].
    inversion S; subst. cbn in K. unfold upd in K. destruct (Nat.eqb_spec c d) as [->|]; auto. right. split; auto. right. inversion K; subst. eexists h, _, _. split; [reflexivity|]. unfold fpend. cbn. apply flat_bufs_f.
  - cbn [step] in S. destruct block as [|block]; [discriminate|]. destruct l as [|z l]; [discriminate|]. destruct (fmessages _ _ _) as [ms|] eqn:M; [|discriminate]. unfold begin in S. destruct (copies s d) eqn:E; [discriminate|].
    inversion S; subst. cbn in K. unfold upd in K. destruct (Nat.eqb_spec c d) as [->|]; auto. right. split; auto. left. inversion K; subst. eexists h, _, _, ms.
    split; [reflexivity|]. split; [lia|]. split; auto. unfold fpend. cbn. split; [apply flat_files|]. destruct (map FileMsg ms); discriminate.
  - cbn in S. destruct (copies s d) as [[h [|m t] [| | |] [| |]]|] eqn:E; try discriminate. inversion S; subst. cbn in K. unfold upd in K. destruct (Nat.eqb_spec c d) as [->|]; auto.
    inversion K; subst. left. eapply LIFT; [exact E|reflexivity|reflexivity].
  - apply take_inv in S. destruct S as (h & t & m & a & w & E & W & ->). left. destruct (Nat.eq_dec c d) as [->|N].
    + eapply LIFT; [exact E| |]; destruct m as [ps|ps]; cbn in K; rewrite upd_same in K; inversion K; reflexivity.
    + apply SAME. destruct m as [ps|ps]; cbn in K; rewrite upd_other in K by auto; auto. destruct (put_pieces_frame ps (set_wire s h w)) as (_ & _ & _ & Q & _). now rewrite Q in K.
  - cbn in S. destruct (copies s d) as [[h t [| |[|p r]|] a]|] eqn:E; try discriminate. left. destruct (Nat.eq_dec c d) as [->|N].
    + eexists. split; [exact E|]. destruct (get_file s (f_uid p)) as [[o' ws]|]; inversion S; subst; cbn in K; rewrite upd_same in K; inversion K; cbn;
        (split; [unfold fpend; cbn; intros q I; try (right; exact I); right; apply in_or_app; now right|split; [congruence|split; [discriminate|auto]]]).
    + apply SAME. destruct (get_file s (f_uid p)) as [[o' ws]|]; inversion S; subst; cbn in K; rewrite upd_other in K by auto; auto.
  - cbn in S. left. destruct (Nat.eq_dec c d) as [->|N].
    + destruct (copies s d) as [[h t [| |[|p r]|] a]|] eqn:E; try discriminate; (eapply LIFT; [reflexivity| |]); inversion S; subst; cbn in K; rewrite upd_same in K; inversion K; cbn; try reflexivity;
        destruct a; try reflexivity; destruct t; try reflexivity; split; discriminate.
    + apply SAME. destruct (copies s d) as [[h t [| |[|p r]|] a]|] eqn:E; try discriminate; inversion S; subst; cbn in K; rewrite upd_other in K by auto; auto.
  - cbn in S. destruct (copies s d) as [[h t f [| |]]|] eqn:E; try discriminate. inversion S; subst. cbn in K. unfold upd in K. destruct (Nat.eqb_spec c d) as [->|]; auto.
    inversion K; subst. left. eexists. split; [exact E|]. unfold fpend. cbn. rewrite app_nil_r.
    split; [intros p I; apply in_or_app; now left|]. split; [congruence|]. split; [eauto|discriminate].
Qed.

(** Who can change a file. *)
Lemma file_step (s : st) x s' o ws : step s x = Some s' -> x <> Gone o -> heap s o = Live (File ws) ->
  heap s' o = Live (File ws) \/ (exists d, x = Own o d /\ heap s' o = Live (File (ws ++ [(None, d)]))) \/
  (exists d p h t r a, x = Write d /\ copies s d = Some (mkC h t (Busy (p :: r)) a) /\ fls s (f_uid p) = Some o /\ heap s' o = Live (File (ws ++ [(Some d, f_data p)]))).
Proof.
  intros S NG H. destruct x as [o' v|u' o'|o'|o' d|d h block l|d h block l|d|d|d|d|d].
  - left. cbn in S. destruct (heap s o') eqn:E; try discriminate. destruct v as [|[|]]; try discriminate; inversion S; subst; cbn; rewrite upd_other; auto; congruence.
  - left. cbn in S. destruct (bufs s u') eqn:E; [discriminate|]. destruct (fls s u'); [discriminate|]. destruct (heap s o') as [|[|]|]; try discriminate; inversion S; subst; auto.
  - left. cbn in S. destruct (heap s o'); try discriminate. inversion S; subst. cbn. rewrite upd_other; auto; congruence.
  - cbn in S. destruct (Nat.eq_dec o' o) as [->|N].
    + rewrite H in S. inversion S; subst. right. left. exists d. split; auto. cbn. apply upd_same.
    + left. destruct (heap s o') as [|[b|ws']|]; try discriminate; [destruct (_ =? _); [|discriminate]|]; inversion S; subst; cbn; rewrite upd_other; auto.
  - left. cbn [step] in S. destruct block; [discriminate|]. destruct l; [discriminate|]. destruct (messages _ _ _); [|discriminate]. unfold begin in S. destruct (copies s d); [discriminate|]. now inversion S; subst.
  - left. cbn [step] in S. destruct block; [discriminate|]. destruct l; [discriminate|]. destruct (fmessages _ _ _); [|discriminate]. unfold begin in S. destruct (copies s d); [discriminate|]. now inversion S; subst.
  - left. cbn in S. destruct (copies s d) as [[h [|m t] [| | |] [| |]]|]; try discriminate. now inversion S; subst.
  - left. apply take_inv in S. destruct S as (h & t & m & a & w & E & W & ->). destruct m as [ps|ps]; [|exact H]. cbn.
    destruct (put_pieces_frame ps (set_wire s h w)) as (_ & _ & _ & _ & _ & F). rewrite F; cbn; rewrite H; auto; discriminate.
  - cbn in S. destruct (copies s d) as [[h t [| |[|p r]|] a]|] eqn:E; try discriminate. destruct (get_file s (f_uid p)) as [[o' ws']|] eqn:G; inversion S; subst; auto.
    apply get_file_inv in G. destruct G as (G1 & G2). destruct (Nat.eq_dec o' o) as [->|N].
    + right. right. exists d, p, h, t, r, a. repeat split; auto. cbn. rewrite upd_same. congruence.
    + left. cbn. rewrite upd_other; auto.
  - left. cbn in S. destruct (copies s d) as [[h t [| |[|p r]|] a]|]; try discriminate; now inversion S; subst.
  - left. cbn in S. destruct (copies s d) as [[h t f [| |]]|]; try discriminate. now inversion S; subst.
Qed.
Lemma new_file (s : st) x s' o ws : step s x = Some s' -> heap s' o = Live (File ws) -> (exists ws0, heap s o = Live (File ws0)) \/ ws = [].
Proof.
  intros S H. destruct x as [o' v|u' o'|o'|o' d|d h block l|d h block l|d|d|d|d|d].
  - cbn in S. destruct (Nat.eq_dec o' o) as [->|N].
    + destruct (heap s o) eqn:E; try discriminate. destruct v as [b|[|z r]]; try discriminate; inversion S; subst; cbn in H; rewrite upd_same in H; inversion H; auto.
    + left. destruct (heap s o'); try discriminate. destruct v as [b|[|z r]]; try discriminate; inversion S; subst; cbn in H; rewrite upd_other in H by auto; eauto.
  - left. cbn in S. destruct (bufs s u') eqn:E; [discriminate|]. destruct (fls s u'); [discriminate|]. destruct (heap s o') as [|[|]|]; try discriminate; inversion S; subst; eauto.
  - left. cbn in S. destruct (heap s o') eqn:E; try discriminate. inversion S; subst. cbn in H. unfold upd in H. destruct (o =? o'); [discriminate|eauto].
  - left. cbn in S. destruct (heap s o') as [|[b|ws']|] eqn:E; try discriminate; [destruct (_ =? _); [|discriminate]|]; inversion S; subst; cbn in H; unfold upd in H; destruct (Nat.eqb_spec o o') as [->|]; eauto; discriminate.
  - left. cbn [step] in S. destruct block; [discriminate|]. destruct l; [discriminate|]. destruct (messages _ _ _); [|discriminate]. unfold begin in S. destruct (copies s d); [discriminate|]. inversion S; subst; eauto.
  - left. cbn [step] in S. destruct block; [discriminate|]. destruct l; [discriminate|]. destruct (fmessages _ _ _); [|discriminate]. unfold begin in S. destruct (copies s d); [discriminate|]. inversion S; subst; eauto.
  - left. cbn in S. destruct (copies s d) as [[h [|m t] [| | |] [| |]]|]; try discriminate. inversion S; subst; eauto.
  - left. apply take_inv in S. destruct S as (h & t & m & a & w & E & W & ->). destruct m as [ps|ps]; [|eauto]. cbn in H.
    destruct (put_pieces_frame ps (set_wire s h w)) as (_ & _ & _ & _ & F1 & F2). destruct (heap s o) as [|[b|ws0]|] eqn:E0; eauto; exfalso.
    + rewrite F2 in H by (cbn; rewrite E0; discriminate). cbn in H. congruence.
    + destruct (F1 o b) as (x' & Q & _); [exact E0|]. congruence.
    + rewrite F2 in H by (cbn; rewrite E0; discriminate). cbn in H. congruence.
  - left. cbn in S. destruct (copies s d) as [[h t [| |[|p r]|] a]|] eqn:E; try discriminate. destruct (get_file s (f_uid p)) as [[o' ws']|] eqn:G; inversion S; subst; eauto.
    apply get_file_inv in G. destruct G as (G1 & G2). cbn in H. unfold upd in H. destruct (Nat.eqb_spec o o') as [->|]; eauto.
  - left. cbn in S. destruct (copies s d) as [[h t [| |[|p r]|] a]|]; try discriminate; inversion S; subst; eauto.
  - left. cbn in S. destruct (copies s d) as [[h t f [| |]]|]; try discriminate. inversion S; subst; eauto.
Qed.

Lemma all_files_uid block l ps : all_files A block l ps -> forall p, In p ps -> exists f, In (f_uid p, f) l.
Proof.
  induction 1 as [|uid f l ps qs C F AF IH]; intros p I; [destruct I|]. apply in_app_or in I. destruct I as [I|I].
  - rewrite Forall_forall in F. destruct (F p I) as (<- & _). exists f. now left.
  - destruct (IH p I) as (g & J). exists g. now right.
Qed.
Lemma all_files_sel block l ps (P : nat -> bool) : all_files A block l ps ->
  concat (map f_data (filter (fun p => P (f_uid p)) ps)) = concat (map (fun r => content A (snd r)) (filter (fun r => P (fst r)) l)).
Proof.
  induction 1 as [|uid f l ps qs C F AF IH]; [reflexivity|]. rewrite filter_app, map_app, concat_app, IH. cbn [filter fst].
  assert (Q : filter (fun p => P (f_uid p)) ps = if P uid then ps else []).
  { clear C. induction F as [|p ps (H & _) F IHF]; cbn; [now destruct (P uid)|]. rewrite H, IHF. destruct (P uid); auto. }
  rewrite Q. destruct (P uid); cbn; auto. now rewrite C.
Qed.

(** Every piece in a file is from a copy that was to write there; [started]: also pieces not written yet. *)
Definition begun (tr : list event) (d u : nat) : Prop := exists h block l f, In (BeginF d h block l) tr /\ In (u, f) l.
Lemma fsource tr : (forall d h block l, In (BeginF d h block l) tr -> Forall (fun r => proper A (snd r)) l) -> forall s : st, run fresh tr = Some s ->
  (forall d k p, copies s d = Some k -> In p (fpend k) -> begun tr d (f_uid p)) /\
  (forall o ws d x, heap s o = Live (File ws) -> In (Some d, x) ws -> copies s d <> None /\ exists u, begun tr d u /\ fls s u = Some o) /\
  (forall o ws x, heap s o = Live (File ws) -> In (None, x) ws -> In (Own o x) tr).
Proof.
  induction tr as [|x tr IH] using rev_ind; intros PR s E.
  - cbn in E. inversion E; subst. repeat split; intros; discriminate.
  - rewrite run_app in E. destruct (run fresh tr) as [s0|] eqn:E0; [|discriminate]. cbn [run] in E. destruct (step s0 x) as [s1|] eqn:S; [|discriminate]. inversion E; subst s1; clear E.
    assert (MORE : forall d u, begun tr d u -> begun (tr ++ [x]) d u) by (intros d u (h & block & l & f & J1 & J2); exists h, block, l, f; split; auto; apply in_or_app; auto).
    destruct (IH ltac:(intros; eapply PR; apply in_or_app; left; eauto) s0 eq_refl) as (I1 & I2 & I3). split; [|split].
    + intros d k' p K I. destruct (fcopies_step s0 x s d k' S K) as [(k & K0 & IN & _)|(_ & [(h & block & l & ms & -> & BP & M & BQ & _)|(h & block & l & -> & BQ)])].
      * apply MORE. apply (I1 d k p K0). auto.
      * rewrite BQ in I. destruct (fmessages_ok A block l BP) as (ms' & M' & C & _); [apply (PR d h block l); apply in_or_app; right; now left|]. rewrite M in M'. inversion M'; subst ms'.
        destruct (all_files_uid _ _ _ C p I) as (f & J). exists h, block, l, f. split; auto. apply in_or_app. right. now left.
      * rewrite BQ in I. destruct I.
    + intros o ws d y H I. destruct (new_file s0 x s o ws S H) as [(ws0 & H0)| ->]; [|destruct I].
      assert (NG : x <> Gone o) by (intros ->; cbn in S; rewrite H0 in S; inversion S; subst; cbn in H; rewrite upd_same in H; discriminate).
      assert (OLD : In (Some d, y) ws0 -> copies s d <> None /\ (exists u, begun (tr ++ [x]) d u /\ fls s u = Some o)).
      { intros J. destruct (I2 o ws0 d y H0 J) as (Q1 & u & Q2 & Q3). split.
        - destruct (copies s0 d) as [k|] eqn:K; [|congruence]. destruct (copies_stay s0 x s d k S K) as (k' & ->). discriminate.
        - exists u. split; auto. now apply (keep_fls s0 x). }
      destruct (file_step s0 x s o ws0 S NG H0) as [Q|[(e & -> & Q)|(e & p & h & t & r & a & -> & K & FU & Q)]]; rewrite H in Q; inversion Q; subst ws; auto.
      * apply in_app_or in I. destruct I as [I|[I|[]]]; [auto|discriminate].
      * apply in_app_or in I. destruct I as [I|[I|[]]]; [auto|]. inversion I; subst e y. split.
        -- destruct (copies_stay s0 (Write d) s d _ S K) as (k' & ->). discriminate.
        -- exists (f_uid p). split; [|now apply (keep_fls s0 (Write d))]. apply MORE. apply (I1 d _ p K). unfold fpend. cbn. now left.
    + intros o ws y H I. destruct (new_file s0 x s o ws S H) as [(ws0 & H0)| ->]; [|destruct I].
      assert (NG : x <> Gone o) by (intros ->; cbn in S; rewrite H0 in S; inversion S; subst; cbn in H; rewrite upd_same in H; discriminate).
      destruct (file_step s0 x s o ws0 S NG H0) as [Q|[(e & -> & Q)|(e & p & h & t & r & a & -> & K & FU & Q)]]; rewrite H in Q; inversion Q; subst ws.
      * apply in_or_app. left. now apply (I3 o ws0).
      * apply in_app_or in I. destruct I as [I|[I|[]]]; [apply in_or_app; left; now apply (I3 o ws0)|]. inversion I; subst. apply in_or_app. right. now left.
      * apply in_app_or in I. destruct I as [I|[I|[]]]; [apply in_or_app; left; now apply (I3 o ws0)|discriminate].
Qed.

(** ** The main invariant, for files *)
Section Files.
Context (F : nat -> option nat) (o c : nat) (l : list (nat * file A)) (ALL : list (fpiece A)).
Definition to_o (u : nat) : bool := match F u with Some o' => o' =? o | None => false end.
Definition sel (ps : list (fpiece A)) : list buf := map f_data (filter (fun p => to_o (f_uid p)) ps).
Definition is_by (w : option nat * buf) : bool := match fst w with Some d => d =? c | None => false end.
Definition written (ws : list (option nat * buf)) : list buf := map snd (filter is_by ws).
Record FMain (s : st) : Prop := {
  f_sub : forall u o', fls s u = Some o' -> F u = Some o';
  f_tgt : forall u f, In (u, f) l -> exists o' ws, fls s u = Some o' /\ heap s o' = Live (File ws);
  f_rest : exists k ws, copies s c = Some k /\ heap s o = Live (File ws) /\
    (forall p, In p (fpend k) -> exists f, In (f_uid p, f) l) /\
    exists rest, written ws ++ sel (fpend k) ++ rest = sel ALL /\ (state k <> Cancelled -> rest = []) }.
Definition fallowed (x : event) : Prop := (forall u f o', In (u, f) l -> F u = Some o' -> x <> Gone o') /\ x <> Gone o.

Lemma sel_app a b : sel (a ++ b) = sel a ++ sel b.
Proof. unfold sel. now rewrite filter_app, map_app. Qed.
Lemma fmain_step s x s' : FMain s -> fallowed x -> (forall u o', fls s' u = Some o' -> F u = Some o') -> step s x = Some s' -> FMain s'.
Proof.
  intros [M1 M2 (k & ws & K & H & PC & rest & EQ & RS)] (AG & AO) SUB S. split.
  - exact SUB.
  - intros u f I. destruct (M2 u f I) as (o' & ws' & Q1 & Q2). exists o'.
    destruct (file_step s x s' o' ws' S) as [Q|[(e & -> & Q)|(e & p & h & t & r & a & -> & _ & FU & Q)]]; auto; [apply (AG u f o' I); auto|..]; eexists; (split; [now apply (keep_fls s) with (1 := S)|exact Q]).
  - destruct (copies_stay s x s' c k S K) as (k' & K'). exists k'.
    destruct (fcopies_step s x s' c k' S K') as [(k0 & K0 & IN & SM & CN & ST)|(K0 & _)]; [|congruence]. rewrite K in K0. inversion K0; subst k0; clear K0.
    assert (PC' : forall p, In p (fpend k') -> exists f, In (f_uid p, f) l) by (intros p I; apply PC; auto).
    assert (CASES : x = Write c \/ x = Cancel c \/ (x <> Write c /\ x <> Cancel c)).
    { destruct x as [o' v|u' o'|o'|o' d|d h block l'|d h block l'|d|d|d|d|d]; try (right; right; split; discriminate); destruct (Nat.eq_dec d c) as [->|]; auto; right; right; split; congruence. }
    destruct CASES as [->|[->|(N1 & N2)]].
    + cbn in S. rewrite K in S. destruct k as [h t [| |[|p r]|] a]; try discriminate.
      destruct (PC p) as (f & J); [unfold fpend; cbn; now left|]. destruct (M2 _ f J) as (o' & ws' & Q1 & Q2).
      assert (G : get_file s (f_uid p) = Some (o', ws')) by now apply get_file_inv. rewrite G in S. inversion S; subst s'; clear S. cbn in K'. rewrite upd_same in K'. inversion K'; subst k'; clear K'.
      unfold fpend in EQ. cbn [flying todo app] in EQ. unfold sel in EQ. cbn [filter] in EQ. unfold to_o at 1 in EQ. rewrite (M1 _ _ Q1) in EQ.
      cbn. unfold upd. destruct (Nat.eqb_spec o o') as [<-|N].
      * rewrite Nat.eqb_refl in EQ. rewrite H in Q2. inversion Q2; subst ws'. eexists. split; [now rewrite Nat.eqb_refl|]. split; [reflexivity|]. split; [exact PC'|]. exists rest. split; [|exact RS].
        unfold written. rewrite filter_app, map_app. replace (filter is_by [(Some c, f_data p)]) with [(Some c, f_data p)] by (cbn; unfold is_by; cbn; now rewrite Nat.eqb_refl). cbn [map snd]. rewrite <- app_assoc. cbn in EQ. exact EQ.
      * replace (o' =? o) with false in EQ by (symmetry; apply Nat.eqb_neq; auto). exists ws. split; [now rewrite Nat.eqb_refl|]. split; [exact H|]. split; [exact PC'|]. exists rest. split; [exact EQ|exact RS].
    + destruct (CN eq_refl) as (r & Q). exists ws. split; [exact K'|]. split.
      { cbn in S. rewrite K in S. destruct k as [h t f [| |]]; try discriminate. now inversion S; subst. }
      split; [exact PC'|]. exists (sel r ++ rest). split; [rewrite Q, sel_app, <- app_assoc in EQ; exact EQ|].
      intros NC. exfalso. apply NC. cbn in S. rewrite K in S. destruct k as [h t f [| |]]; try discriminate. inversion S; subst. cbn in K'. rewrite upd_same in K'. now inversion K'.
    + destruct (SM N1 N2) as (Q1 & Q2). assert (RS' : state k' <> Cancelled -> rest = []) by (intros NC; apply RS; intros Z; apply NC; auto).
      destruct (file_step s x s' o ws S AO H) as [Q|[(e & -> & Q)|(e & p & h & t & r & a & -> & _ & FU & Q)]].
      * exists ws. rewrite Q1. split; [exact K'|]. split; [exact Q|]. split; [now rewrite <- Q1|]. eauto.
      * eexists. split; [exact K'|]. split; [exact Q|]. split; [exact PC'|]. exists rest. split; [|exact RS']. rewrite Q1. unfold written. rewrite filter_app. cbn. now rewrite app_nil_r.
      * assert (EC : e <> c) by congruence. eexists. split; [exact K'|]. split; [exact Q|]. split; [exact PC'|]. exists rest. split; [|exact RS']. rewrite Q1. unfold written. rewrite filter_app.
        replace (filter is_by [(Some e, f_data p)]) with (@nil (option nat * buf)) by (cbn; unfold is_by; cbn; replace (e =? c) with false by (symmetry; apply Nat.eqb_neq; auto); reflexivity). now rewrite app_nil_r.
Qed.
Lemma fmain_run tr : forall s s', FMain s -> (forall x, In x tr -> fallowed x) -> run s tr = Some s' -> fls s' = F -> FMain s'.
Proof.
  induction tr as [|x tr IH]; intros s s' M AL E EB; cbn in E; [now inversion E; subst|]. destruct (step s x) as [s1|] eqn:S; [|discriminate].
  apply (IH s1); auto; [|intros z Z; apply AL; now right]. apply (fmain_step s x); auto; [apply AL; now left|].
  intros u o' Q. rewrite <- EB. now apply (keep_run tr s1 s').
Qed.
End Files.
End P.
